(** Exact integers: the fixnum/bignum layer of src/number.c (64-bit long).  Flonum,
    ratnum and compnum operands and the generic fallback are not modelled. *)
From Coq Require Import List Bool ZArith.
From Verif Require Import Outcome BignumModel.
Import ListNotations.
Local Open Scope Z_scope.

(** signed long arithmetic: overflow is undefined behaviour *)
Definition LONG_MAX : Z := 9223372036854775807.
Definition LONG_MIN : Z := -9223372036854775808.
Definition sl (x : Z) : res Z := if (LONG_MIN <=? x) && (x <=? LONG_MAX) then Ok x else UB.

(** src/number.c:1100-1107  Scm_MakeInteger *)
Definition make_integer (i : Z) : num :=
  if (FIX_MIN <=? i) && (i <=? FIX_MAX) then mkint i else Bn (bignum_of_si i).
(** src/number.c:1109-1113  Scm_MakeIntegerU *)
Definition make_integer_u (i : Z) : num :=
  if i <=? FIX_MAX then mkint i else Bn (bignum_of_ui i).

(** src/number.c:1704-1737  scm_abs *)
Definition num_abs (x : num) : num :=
  match x with
  | Fix v => if v <? 0 then (if v =? FIX_MIN then Bn (bignum_of_si (- v)) else mkint (- v)) else x
  | Bn b => if sign b <? 0 then Bn (Big 1 (words b)) else x
  end.
(** src/number.c:1741-1765  Scm_Sign *)
Definition num_sign (x : num) : Z :=
  match x with Fix v => if v =? 0 then 0 else if 0 <? v then 1 else -1 | Bn b => sign b end.
(** src/number.c:1767-1789  negate *)
Definition num_negate (x : num) : num :=
  match x with
  | Fix v => if v =? FIX_MIN then Bn (bignum_of_si (- v)) else mkint (- v)
  | Bn b => bignum_negate b
  end.
(** src/number.c:1651-1665  Scm_OddP *)
Definition num_oddp (x : num) : res bool :=
  match x with
  | Fix v => Ok (negb (Z.land v 1 =? 0))
  | Bn b => do w <- rd (words b) 0; Ok (negb (Z.land w 1 =? 0))
  end.

(** src/number.c:1896-2020  scm_add *)
Definition num_add (x y : num) : res num :=
  match x, y with
  | Fix a, Fix b => do r <- sl (a + b); Ok (make_integer r)
  | Fix a, Bn b => if a =? 0 then Ok y else bignum_add_si b a
  | Bn a, Fix b => if b =? 0 then Ok x else bignum_add_si a b
  | Bn a, Bn b => bignum_add a b
  end.
(** src/number.c:2023-2140  scm_sub *)
Definition num_sub (x y : num) : res num :=
  match x, y with
  | Fix a, Fix b => do r <- sl (a - b); Ok (make_integer r)
  | Fix a, Bn b => bignum_sub (bignum_of_si a) b
  | Bn a, Fix b => if b =? 0 then Ok x else bignum_sub_si a b
  | Bn a, Bn b => bignum_sub a b
  end.

(** src/gauche/priv/arith.h:219-227  UMULOV: (r, overflow) *)
Definition umulov (x y : Z) : Z * Z :=
  if (x =? 0) || (y =? 0) then (0, 0)
  else let '(h, l) := umul x y in (l, if h =? 0 then 0 else 1).
(** src/gauche/priv/arith.h:237-263  SMULOV: (r, v); r is left alone (0 here) on overflow *)
Definition smulov (x y : Z) : Z * Z :=
  if 0 <=? x then
    if 0 <=? y then let '(t, v) := umulov x y in if negb (v =? 0) || (LONG_MAX <? t) then (0, 1) else (t, 0)
    else let '(t, v) := umulov x (- y) in if negb (v =? 0) || (LONG_MAX + 1 <? t) then (0, -1) else (slong (uwrap (- t)), 0)
  else
    if 0 <=? y then let '(t, v) := umulov (- x) y in if negb (v =? 0) || (LONG_MAX + 1 <? t) then (0, -1) else (slong (uwrap (- t)), 0)
    else let '(t, v) := umulov (- x) (- y) in if negb (v =? 0) || (LONG_MAX <? t) then (0, 1) else (t, 0).
(** src/number.c:2147-2270  scm_mul *)
Definition num_mul (x y : num) : res num :=
  match x, y with
  | Fix a, Fix b =>
      let '(k, ov) := smulov a b in
      if negb (ov =? 0) || negb ((FIX_MIN <=? k) && (k <=? FIX_MAX)) then bignum_mul_si (bignum_of_si a) b
      else Ok (make_integer k)
  | Fix a, Bn b => if a =? 0 then Ok x else if a =? 1 then Ok y else bignum_mul_si b a
  | Bn a, Fix b => if b =? 0 then Ok y else if b =? 1 then Ok x else bignum_mul_si a b
  | Bn a, Bn b => bignum_mul a b
  end.

(** src/number.c:3120-3300  Scm_NumCmp *)
Definition num_cmp (x y : num) : res Z :=
  match x, y with
  | Fix a, Fix b => do r <- sl (a - b); Ok (if r <? 0 then -1 else if 0 <? r then 1 else 0)
  | Fix a, Bn b => Ok (bignum_cmp (bignum_of_si a) b)
  | Bn a, Fix b => Ok (bignum_cmp a (bignum_of_si b))
  | Bn a, Bn b => Ok (bignum_cmp a b)
  end.

(** src/number.c:2600-2688  Scm_Quotient: (quotient, *rem).  Division of longs truncates. *)
Definition num_quotient (x y : num) : res (num * num) :=
  match y with
  | Fix 1 => Ok (x, mkint 0)
  | _ =>
    match x, y with
    | Fix a, Fix b => if b =? 0 then Err else Ok (mkint (Z.quot a b), mkint (Z.rem a b))
    | Fix a, Bn _ => Ok (mkint 0, x)
    | Bn a, Fix b => do p <- bignum_divsi a b; Ok (fst p, mkint (snd p))
    | Bn a, Bn b => bignum_divrem a b
    end
  end.
(** src/number.c:2693-2790  Scm_Modulo *)
Definition num_modulo (x y : num) (remp : bool) : res num :=
  match x, y with
  | Fix a, Fix b =>
      if b =? 0 then Err
      else let r := Z.rem a b in
           if negb remp && negb (r =? 0) && (((0 <? a) && (b <? 0)) || ((a <? 0) && (0 <? b)))
           then do s <- sl (r + b); Ok (mkint s) else Ok (mkint r)
  | Fix a, Bn b =>
      if remp then Ok x
      else if ((a <? 0) && (0 <? sign b)) || ((0 <? a) && (sign b <? 0)) then bignum_add_si b a
      else Ok x
  | Bn a, Fix b =>
      do r <- bignum_remsi a b;
      if negb remp && negb (r =? 0) && (((sign a <? 0) && (0 <? b)) || ((0 <? sign a) && (b <? 0)))
      then do s <- sl (b + r); Ok (mkint s) else Ok (mkint r)
  | Bn a, Bn b =>
      do p <- bignum_divrem a b;
      let rem := snd p in
      match rem with
      | Fix 0 => Ok rem
      | _ => if negb remp && (sign a * sign b <? 0)
             then match rem with Bn r => bignum_add b r | Fix r => bignum_add_si b r end
             else Ok rem
      end
  end.

(** src/number.c:2796-2804  gcd_fixfix; running out of fuel is UB *)
Fixpoint gcd_fixfix (fuel : nat) (x y : Z) : res Z :=
  match fuel with
  | O => UB
  | S f => if 0 <? y then gcd_fixfix f y (x mod y) else Ok x
  end.
Definition GCD_FUEL : nat := 140.
(** src/number.c:2821-2827  gcd_bigfix *)
Definition gcd_bigfix (x : bignum) (y : Z) : res Z :=
  do p <- bignum_divsi x (slong y);
  let rem := snd p in
  do r <- (if rem <? 0 then sl (- rem) else Ok rem);
  gcd_fixfix GCD_FUEL y r.
(** src/number.c:1133-1139, src/bignum.c:251-276  Scm_GetIntegerClamp with
    SCM_CLAMP_NONE: (value, out of range) *)
Definition get_integer (x : num) : res (Z * bool) :=
  match x with
  | Fix v => Ok (v, false)
  | Bn b =>
    do w <- rd (words b) 0;
    if 0 <=? sign b then
      if (LONG_MAX <? w) || Nat.leb 2 (length (words b)) then Ok (0, true) else Ok (w, false)
    else
      if (LONG_MAX + 1 <? w) || Nat.leb 2 (length (words b)) then Ok (0, true) else Ok (- w, false)
  end.
(** src/number.c:2873-2877: the loop on bignums; running out of fuel is UB *)
Fixpoint gcd_loop (fuel : nat) (x y : num) : res num :=
  match fuel with
  | O => UB
  | S f => match y with
           | Fix 0 => Ok x
           | _ => do r <- num_modulo x y true; gcd_loop f y r
           end
  end.
Definition num_size (x : num) : nat := match x with Fix _ => 1%nat | Bn b => length (words b) end.
Definition u_abs (x : Z) : Z := uwrap (if x <? 0 then - x else x).
(** src/number.c:2830-2879  Scm_Gcd.  -ix for ix = LONG_MIN is taken to wrap around. *)
Definition num_gcd (x y : num) : res num :=
  match x, y with
  | Fix 0, _ => Ok y
  | _, Fix 0 => Ok x
  | _, _ =>
    do p <- get_integer x;
    do q <- get_integer y;
    let '(ix, ox) := p in let '(iy, oy) := q in
    if negb ox && negb oy then
      let ux := u_abs ix in let uy := u_abs iy in
      do ur <- (if uy <=? ux then gcd_fixfix GCD_FUEL ux uy else gcd_fixfix GCD_FUEL uy ux);
      Ok (make_integer_u ur)
    else if negb oy && negb (iy =? LONG_MIN) then
      match x with Bn b => do ur <- gcd_bigfix b (u_abs iy); Ok (make_integer_u ur) | Fix _ => Panic end
    else if negb ox && negb (ix =? LONG_MIN) then
      match y with Bn b => do ur <- gcd_bigfix b (u_abs ix); Ok (make_integer_u ur) | Fix _ => Panic end
    else
      let x1 := num_abs x in let y1 := num_abs y in
      do c <- num_cmp x1 y1;
      let '(x2, y2) := if c <? 0 then (y1, x1) else (x1, y1) in
      gcd_loop (128 * num_size y2 + 140) x2 y2
  end.
(** src/libnum.scm:407-419  gcd on exact integers *)
Fixpoint gcd_recn (arg : num) (args : list num) : res num :=
  match args with [] => Ok arg | a :: t => do g <- num_gcd arg a; gcd_recn g t end.
Definition scheme_gcd (args : list num) : res num :=
  match map num_abs args with
  | [] => Ok (mkint 0)
  | a :: t => gcd_recn a t
  end.
(** src/libnum.scm:421-437  lcm on exact integers *)
Definition lcm2 (u v : num) : res num :=
  do g <- num_gcd u v;
  if num_sign u =? 0 then Ok (mkint 0)
  else do p <- num_quotient u g; num_mul (fst p) v.
Fixpoint lcm_recn (arg : num) (args : list num) : res num :=
  match args with [] => Ok arg | a :: t => do g <- lcm2 arg a; lcm_recn g t end.
Definition scheme_lcm (args : list num) : res num :=
  match map num_abs args with
  | [] => Ok (mkint 1)
  | a :: t => lcm_recn a t
  end.

(** conversion of a long to int *)
Definition sint (x : Z) : Z := (x + 2147483648) mod 4294967296 - 2147483648.
(** src/bignum.c:1077-1107  Scm_BignumAsh for cnt > 0, after the conversion to int *)
Definition bignum_ash_left (x : bignum) (cnt : Z) : res num :=
  do r <- make_bignum (length (words x) + Z.to_nat (Z.quot (cnt + 63) 64));
  do ws <- lshift r (words x) cnt;
  Ok (normalize (Big (sign x) ws)).
(** src/number.c:3427-3468  Scm_Ash of a fixnum by cnt >= 0 *)
Definition fix_ash_left (ix cnt : Z) : res num :=
  if 268435456 <=? cnt then Err
  else
    let fits := if ix <? 0 then - ix <? Z.shiftr FIX_MAX cnt else ix <? Z.shiftr FIX_MAX cnt in
    if (cnt <? 61) && fits then do r <- sl (Z.shiftl ix cnt); Ok (make_integer r)
    else if cnt =? 0 then Ok (Bn (bignum_of_si ix))
    else bignum_ash_left (bignum_of_si ix) cnt.
(** src/bignum.c:1077-1107  Scm_BignumAsh *)
Definition bignum_ash (x : bignum) (cnt : Z) : res num :=
  if cnt =? 0 then Ok (Bn x)
  else if 0 <? cnt then bignum_ash_left x cnt
  else
    let rsize := Z.of_nat (length (words x)) + Z.quot cnt 64 in
    if rsize <? 1 then Ok (if sign x <? 0 then mkint (-1) else mkint 0)
    else if sign x <? 0 then
      do a <- num_add (Bn x) (mkint 1);
      do b <- fix_ash_left 1 (- cnt);
      do p <- num_quotient a b;
      num_add (fst p) (mkint (-1))
    else
      do r <- make_bignum (Z.to_nat rsize);
      do ws <- rshift false r (words x) (- cnt);
      Ok (normalize (Big (sign x) ws)).
(** src/number.c:3427-3468  Scm_Ash; cnt is a ScmSmallInt (long), and is passed to
    Scm_BignumAsh as an int.  SCM_SMALL_INT_SIZE is 61. *)
Definition num_ash (x : num) (cnt : Z) : res num :=
  if 268435456 <=? cnt then Err
  else match x with
       | Fix ix =>
         if cnt <=? -64 then Ok (make_integer (if ix <? 0 then -1 else 0))
         else if cnt <? 0 then
           Ok (make_integer (if ix <? 0 then Z.lnot (Z.shiftr (Z.lnot ix) (- cnt)) else Z.shiftr ix (- cnt)))
         else fix_ash_left ix cnt
       | Bn b => bignum_ash b (sint cnt)
       end.

(** src/number.c:3470-3479  Scm_LogNot *)
Definition num_lognot (x : num) : res num :=
  match x with
  | Fix v => Ok (mkint (Z.lnot v))
  | Bn b => do r <- bignum_add_si b 1; Ok (num_negate r)
  end.
(** src/bignum.c:1113-1127, 1171-1185  bignum_and, bignum_ior: the words common to x and
    y, then the rest of x if xsize is larger, or else the rest of y *)
Definition bignum_bitop (op : Z -> Z -> Z) (zsize : nat) (xs ys : list Z) (commsize xsize ysize : nat) : list Z :=
  let z := map (fun p => op (fst p) (snd p)) (combine (firstn commsize xs) (firstn commsize ys)) ++
           (if Nat.ltb commsize xsize then firstn (xsize - commsize) (skipn commsize xs)
            else if Nat.ltb commsize ysize then firstn (ysize - commsize) (skipn commsize ys)
            else []) in
  z ++ repeat 0 (zsize - length z).
(** src/bignum.c:1129-1166  Scm_BignumLogAnd *)
Definition bignum_logand (x y : bignum) : num :=
  let xs := words x in let ys := words y in
  let xsize := length xs in let ysize := length ys in
  let minsize := Nat.min xsize ysize in
  if 0 <? sign x then
    if 0 <? sign y then normalize (Big 1 (bignum_bitop Z.land minsize xs ys minsize 0 0))
    else normalize (Big 1 (bignum_bitop Z.land xsize xs (twoscmpl ys) minsize xsize 0))
  else
    if 0 <? sign y then normalize (Big 1 (bignum_bitop Z.land ysize (twoscmpl xs) ys minsize 0 ysize))
    else normalize (Big (-1) (twoscmpl (bignum_bitop Z.land (Nat.max xsize ysize) (twoscmpl xs) (twoscmpl ys) minsize xsize ysize))).
(** src/bignum.c:1187-1226  Scm_BignumLogIor *)
Definition bignum_logior (x y : bignum) : num :=
  let xs := words x in let ys := words y in
  let xsize := length xs in let ysize := length ys in
  let minsize := Nat.min xsize ysize in
  if 0 <=? sign x then
    if 0 <=? sign y then normalize (Big 1 (bignum_bitop Z.lor (Nat.max xsize ysize) xs ys minsize xsize ysize))
    else normalize (Big (-1) (twoscmpl (bignum_bitop Z.lor ysize xs (twoscmpl ys) minsize 0 ysize)))
  else
    if 0 <=? sign y then normalize (Big (-1) (twoscmpl (bignum_bitop Z.lor xsize (twoscmpl xs) ys minsize xsize 0)))
    else normalize (Big (-1) (twoscmpl (bignum_bitop Z.lor minsize (twoscmpl xs) (twoscmpl ys) minsize 0 0))).
(** src/number.c:3481-3499  Scm_LogAnd *)
Definition num_logand (x y : num) : res num :=
  match x, y with
  | Fix a, Fix b => Ok (mkint (Z.land a b))
  | Fix a, Bn b => if (0 <=? a) && (0 <=? sign b) then do w <- rd (words b) 0; Ok (make_integer (slong (Z.land a w)))
                   else Ok (bignum_logand (bignum_of_si a) b)
  | Bn a, Fix b => if (0 <=? b) && (0 <=? sign a) then do w <- rd (words a) 0; Ok (make_integer (slong (Z.land b w)))
                   else Ok (bignum_logand a (bignum_of_si b))
  | Bn a, Bn b => Ok (bignum_logand a b)
  end.
(** src/number.c:3501-3514  Scm_LogIor *)
Definition num_logior (x y : num) : res num :=
  match x, y with
  | Fix a, Fix b => Ok (mkint (Z.lor a b))
  | Fix a, Bn b => Ok (bignum_logior (bignum_of_si a) b)
  | Bn a, Fix b => Ok (bignum_logior a (bignum_of_si b))
  | Bn a, Bn b => Ok (bignum_logior a b)
  end.
(** src/bignum.c:1228-1234  Scm_BignumLogXor *)
Definition bignum_logxor (x y : bignum) : res num :=
  let xandy := bignum_logand x y in
  let xory := bignum_logior x y in
  do n <- num_lognot xandy;
  num_logand xory n.
(** src/number.c:3516-3529  Scm_LogXor *)
Definition num_logxor (x y : num) : res num :=
  match x, y with
  | Fix a, Fix b => Ok (mkint (Z.lxor a b))
  | Fix a, Bn b => bignum_logxor (bignum_of_si a) b
  | Bn a, Fix b => bignum_logxor a (bignum_of_si b)
  | Bn a, Bn b => bignum_logxor a b
  end.

(** src/bits.c:311-333  Scm_BitsHighest1 over whole words, from word 0; the words are
    given most significant first *)
Fixpoint bits_highest1 (n : nat) (rws : list Z) : Z :=
  match n, rws with
  | S m, w :: t => if w =? 0 then bits_highest1 m t else highest_bit_number w + Z.of_nat m * 64
  | _, _ => -1
  end.
(** src/number.c:3531-3556  Scm_IntegerLength.  For a negative fixnum
    Scm_BitsHighest0 looks for the highest set bit of the complement. *)
Definition integer_length (n : num) : res Z :=
  match n with
  | Fix v => if 0 <=? v then Ok (bits_highest1 1 [v] + 1) else Ok (bits_highest1 1 [Z.lnot v] + 1)
  | Bn b =>
    do m <- (if sign b <? 0 then num_add n (mkint 1) else Ok n);
    match m with
    | Bn c => Ok (bits_highest1 (length (words c)) (rev (words c)) + 1)
    | Fix _ => Ok (61 + 1)
    end
  end.

(** src/number.c:2926-2961  Scm_ExactIntegerExpt for exponents >= 0: the loop; running
    out of fuel is UB *)
Fixpoint expt_loop (fuel : nat) (r x : num) (iy : Z) : res num :=
  match fuel with
  | O => UB
  | S f =>
    if iy =? 0 then Ok r
    else if iy =? 1 then num_mul r x
    else do r1 <- (if Z.odd iy then num_mul r x else Ok r);
         do x1 <- num_mul x x;
         expt_loop f r1 x1 (Z.shiftr iy 1)
  end.
(** src/number.c:2897-2911  iexpt10_init: entry n of the table *)
Fixpoint iexpt10 (n : nat) : res num :=
  match n with
  | O => Ok (mkint 1)
  | S m => do r <- iexpt10 m; num_mul r (mkint 10)
  end.
Definition num_expt (x y : num) : res num :=
  if num_sign y =? 0 then Ok (mkint 1)
  else match x with
  | Fix 1 => Ok (mkint 1)
  | Fix (-1) => do o <- num_oddp y; Ok (if o then mkint (-1) else mkint 1)
  | _ =>
    match y with
    | Bn _ => Err
    | Fix iy =>
      match x with
      | Fix 10 => if iy <? 341 then iexpt10 (Z.to_nat iy) else expt_loop 64 (mkint 1) x iy
      | Fix 2 => num_ash (mkint 1) iy
      | _ => expt_loop 64 (mkint 1) x iy
      end
    end
  end.

(** src/libnum.scm:607-630  %exact-integer-sqrt: (root, rest).  The first guess comes
    from the C library's sqrt on a double, which is not modelled: [guess] is its floor
    (or the power of two used when it is infinite), an arbitrary integer.  Below 2^52
    the guess is the answer. *)
Fixpoint isqrt_loop (fuel : nat) (k s : num) : res (num * num) :=
  match fuel with
  | O => UB
  | S f =>
    do s2 <- num_mul s s;
    do c <- num_cmp k s2;
    let again :=
      do a <- num_add s2 k;
      do b <- num_mul (mkint 2) s;
      do q <- num_quotient a b;
      isqrt_loop f k (fst q) in
    if c <? 0 then again
    else
      do t <- num_mul (mkint 2) s;
      do s2a <- num_add s2 t;
      do s2p <- num_add s2a (mkint 1);
      do c2 <- num_cmp k s2p;
      if c2 <? 0 then do d <- num_sub k s2; Ok (s, d) else again
  end.
