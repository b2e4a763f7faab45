(** Flonums in decimal: number.c print_double, read_real and algorithmR, Scm_GetDouble.

    Integers are Z: the exactness of Scm_Mul, Scm_Ash, Scm_Quotient and the like is the
    subject of the integer files.  A positive double is [Fin m k], m * 2^k as
    Scm_DecodeFlonum gives it (number.c:437-480), or [Inf]; [Fin 0 (-1074)] is zero. *)
From Coq Require Import ZArith List Bool.
From Verif Require Import Outcome.
Import ListNotations.
Local Open Scope Z_scope.

Inductive flo := Fin (m k : Z) | Inf.
Definition p52 : Z := 2 ^ 52.
Definition p53 : Z := 2 ^ 53.
(** m * 2^k in units of 2^-1074 *)
Definition sv (m k : Z) : Z := m * 2 ^ (k + 1074).

(** The result of an IEEE operation whose exact result is N/D in units of 2^-1074: round to
    nearest, ties to even *)
Definition rnd (N D : Z) : flo :=
  let q := N / D in
  let j := if q <? p53 then 0 else Z.log2 q - 52 in
  let D' := D * 2 ^ j in
  let m := N / D' in
  let r := N mod D' in
  let m' := if (D' <? 2 * r) || ((2 * r =? D') && Z.odd m) then m + 1 else m in
  let mj := if m' =? p53 then (p52, j + 1) else (m', j) in
  if 2045 <? snd mj then Inf else Fin (fst mj) (snd mj - 1074).

(** ** Conversion to double *)
(** Scm_GetDouble of a non-negative integer: a cast (number.c:1506) or Scm_BignumToDouble
    (bignum.c:372-401), which both round to nearest, ties to even *)
Definition int_to_double (f : Z) : flo := rnd (f * 2 ^ 1074) 1.
(** ldexp(d, -shift) *)
Definition ldexp_down (d : flo) (shift : Z) : flo :=
  match d with Inf => Inf | Fin m k => rnd (sv m k) (2 ^ shift) end.
(** number.c:1465-1485 double_precision *)
Definition hi_bit (n : Z) : Z := Z.log2 n.
Definition lo_bit (n : Z) : Z := Z.log2 (Z.land n (- n)).
Definition double_precision (n : Z) : bool := hi_bit n - lo_bit n <? 53.
(** number.c:1508-1623 Scm_GetDouble of a positive ratnum, in lowest terms *)
Definition rat_full (numer denom : Z) : flo :=
  let shift := if hi_bit numer - hi_bit denom <? 54 then 54 - (hi_bit numer - hi_bit denom) else 0 in
  let numer := numer * 2 ^ shift in
  let quo := numer / denom in
  let rem := numer mod denom in
  let quo := if 1076 <? shift then Z.land quo (Z.lnot (2 ^ (shift - 1076 - 1) - 1)) else quo in
  if double_precision quo then ldexp_down (int_to_double quo) shift
  else
    let q_hi := hi_bit quo in
    if negb (Z.testbit quo (q_hi - 53)) then ldexp_down (int_to_double quo) shift
    else
      let mask := 2 ^ (q_hi - 53) in
      if negb (rem =? 0) || negb (Z.land quo (mask - 1) =? 0) then ldexp_down (int_to_double (quo + mask)) shift
      else if negb (Z.testbit quo (q_hi - 52)) then ldexp_down (int_to_double (quo - mask)) shift
      else ldexp_down (int_to_double quo) shift.
Definition rat_to_double (numer denom : Z) : flo :=
  if double_precision numer && double_precision denom then
    match int_to_double numer, int_to_double denom with
    | Fin _ _, Fin _ _ => rnd (numer * 2 ^ 1074) denom
    | _, _ => rat_full numer denom
    end
  else rat_full numer denom.
(** Scm_GetDouble(Scm_Div(n, d)): Scm_Div reduces *)
Definition quot_to_double (n d : Z) : flo :=
  let g := Z.gcd n d in
  if d / g =? 1 then int_to_double (n / g) else rat_to_double (n / g) (d / g).

(** ** Reading *)
(** x * dpow10[n], x / dpow10[n] for 0 <= n <= 22: the table entries are exact *)
Definition mul_pow (d : flo) (n : Z) : flo := match d with Inf => Inf | Fin m k => rnd (sv m k * 10 ^ n) 1 end.
Definition div_pow (d : flo) (n : Z) : flo := match d with Inf => Inf | Fin m k => rnd (sv m k) (10 ^ n) end.
(** number.c:3866-3886 raise_pow10.  The loops go round at most [n / 22] times. *)
Fixpoint raise_up (fuel : nat) (x : flo) (n : Z) : flo :=
  match fuel with
  | O => x
  | S f => if 22 <? n then raise_up f (mul_pow x 22) (n - 22) else mul_pow x n
  end.
Fixpoint raise_down (fuel : nat) (x : flo) (n : Z) : flo :=
  match fuel with
  | O => x
  | S f => if n <? - 22 then raise_down f (div_pow x 22) (n + 22) else div_pow x (- n)
  end.
Definition raise_pow10 (x : flo) (n : Z) : flo :=
  if 0 <=? n then raise_up (S (Z.to_nat n)) x n else raise_down (S (Z.to_nat (- n))) x n.

(** number.c:4726-4743, the values x and y are set to at retry *)
Definition cmp_x (f e k : Z) : Z :=
  if 0 <=? k then if 0 <=? e then f * 10 ^ e else f
  else if 0 <=? e then f * 10 ^ e * 2 ^ (- k) else f * 2 ^ (- k).
Definition cmp_y (e m k : Z) : Z :=
  if 0 <=? k then if 0 <=? e then m * 2 ^ k else m * 10 ^ (- e) * 2 ^ k
  else if 0 <=? e then m else m * 10 ^ (- e).
(** number.c:4778-4792 *)
Definition prev_float (m k : Z) : Z * Z :=
  let m := m - 1 in if (- 1074 <? k) && (m <? p52) then (m * 2, k - 1) else (m, k).
Definition next_float (m k : Z) : Z * Z :=
  let m := m + 1 in if p53 <=? m then (m / 2, k + 1) else (m, k).
Inductive verdict := Return | Prev | Next.
(** number.c:4750-4777 *)
Definition judge (m k x y : Z) : verdict :=
  let d2 := 2 * (m * Z.abs (x - y)) in
  match d2 ?= y with
  | Lt => if (m =? p52) && (x <? y) && (- 1074 <? k) && (y <? 2 * d2) then Prev else Return
  | Eq => if Z.even m then if (m =? p52) && (x <? y) then Prev else Return
          else if x <? y then Prev else Next
  | Gt => if x <? y then Prev else Next
  end.
(** ldexp(m, k) with m an integer below 2^53 and k >= -1074 *)
Definition ldexp_exact (m k : Z) : flo := if 971 <? k then Inf else Fin m k.
(** number.c:4719-4822 algorithmR.  [kprev] is k at the last retry; cut after [fuel]
    rounds (UB). *)
Fixpoint algR_loop (fuel : nat) (f e m k kprev x y : Z) : res flo :=
  match fuel with
  | O => UB
  | S fuel' =>
    let step m' k' :=
      if 0 <=? kprev then
        if 0 <=? k' then algR_loop fuel' f e m' k' kprev x (cmp_y e m' k')
        else algR_loop fuel' f e m' k' k' (cmp_x f e k') (cmp_y e m' k')
      else
        if k' <? 0 then algR_loop fuel' f e m' k' kprev (if k' =? kprev then x else cmp_x f e k') (cmp_y e m' k')
        else algR_loop fuel' f e m' k' k' (cmp_x f e k') (cmp_y e m' k') in
    match judge m k x y with
    | Return => Ok (ldexp_exact m k)
    | Prev => let p := prev_float m k in step (fst p) (snd p)
    | Next => let p := next_float m k in step (fst p) (snd p)
    end
  end.
Definition algorithmR (fuel : nat) (f e m k : Z) : res flo :=
  algR_loop fuel f e m k k (cmp_x f e k) (cmp_y e m k).
(** number.c:5226-5257, the end of read_real: fraction [f] >= 0, raise_factor [e] *)
Definition approximate (f e : Z) : flo :=
  match int_to_double f with
  | Inf => if 0 <=? e then Inf else quot_to_double f (10 ^ (- e))
  | x => raise_pow10 x e
  end.
Definition compose (fuel : nat) (f e : Z) : res flo :=
  match approximate f e with
  | Inf => Ok Inf
  | Fin m k =>
    if (0 <? m) && ((p52 <? f) || (22 <? e) || (e <? - 22)) then algorithmR fuel f e m k
    else Ok (Fin m k)
  end.

(** Characters *)
Definition ch_zero := 48. Definition ch_dot := 46. Definition ch_minus := 45. Definition ch_plus := 43. Definition ch_e := 101.
Definition digit_of (c : Z) : option Z := if (48 <=? c) && (c <=? 57) then Some (c - 48) else None.
(** number.c:4612-4710 read_uint in radix 10, without underscores and hash signs (they stop
    it here): the value, starting from [init], and the rest *)
Fixpoint read_digits (s : list Z) (init : Z) : Z * list Z :=
  match s with
  | c :: r => match digit_of c with Some d => read_digits r (init * 10 + d) | None => (init, s) end
  | [] => (init, [])
  end.
(** number.c:4896-4970 read_exponent: None = #f; exponent, overflow, rest.  Only the marker e. *)
Definition MAX_EXPONENT := 325.
Fixpoint exp_digits (s : list Z) (exponent : Z) (overflow : bool) : Z * bool * list Z :=
  match s with
  | c :: r =>
    match digit_of c with
    | Some d => if overflow then exp_digits r exponent true
                else let e := exponent * 10 + d in exp_digits r e (MAX_EXPONENT <=? e)
    | None => (exponent, overflow, s)
    end
  | [] => (exponent, overflow, [])
  end.
Definition read_exponent (s : list Z) : option (Z * bool * list Z) :=
  match s with
  | [] => Some (0, false, [])
  | c :: r =>
    if c =? ch_e then
      match r with
      | [] => None
      | c2 :: r2 =>
        let sg := (c2 =? ch_minus) || (c2 =? ch_plus) in
        let r3 := if sg then r2 else r in
        match r3 with
        | [] => None
        | _ => let x := exp_digits r3 0 false in
               Some (if c2 =? ch_minus then - fst (fst x) else fst (fst x), snd (fst x), snd x)
        end
      end
    else Some (0, false, s)
  end.
Inductive numval := Exact (n : Z) | Flonum (neg : bool) (d : flo).
(** number.c:4975-5258 read_real on a string without rational, '#', underscore, infinity, nan
    and complex syntax; exactness unspecified.  None = #f.  A rest is an error here. *)
Definition read_real (fuel : nat) (s : list Z) : res (option numval) :=
  match s with
  | [] => Ok None
  | c :: r =>
    let neg := c =? ch_minus in
    let s1 := if neg || (c =? ch_plus) then r else s in
    match s1 with
    | [] => Ok None
    | c1 :: _ =>
      let int_p := negb (c1 =? ch_dot) in
      let x := read_digits s1 0 in
      let intpart := fst x in
      let s2 := snd x in
      if int_p && (length s2 =? length s1)%nat then Ok None
      else match s2 with
      | [] => Ok (Some (Exact (if neg then - intpart else intpart)))
      | c2 :: s3 =>
        let dot := c2 =? ch_dot in
        if dot && negb int_p && match s3 with [] => true | _ => false end then Ok None
        else
        let y := if dot then read_digits s3 intpart else (intpart, s2) in
        let fraction := fst y in
        let s4 := snd y in
        let fracdigs := if dot then Z.of_nat (length s3 - length s4) else 0 in
        if negb int_p && (length s4 =? length s3)%nat then Ok None
        else match read_exponent s4 with
        | None => Ok None
        | Some (exponent, overflow, s5) =>
          match s5 with
          | _ :: _ => Ok None
          | [] =>
            if overflow then
              Ok (Some (Flonum neg (if (exponent <? 0) || (fraction =? 0) then Fin 0 (-1074) else Inf)))
            else do d <- compose fuel fraction (exponent - fracdigs); Ok (Some (Flonum neg d))
          end
        end
      end
    end
  end.

(** ** Printing *)
(** number.c:4110-4137: r, s, m-, whether m+ is twice m- *)
Definition print_init (m k : Z) : Z * Z * Z * bool :=
  if 0 <=? k then
    if negb (m =? p52) then (m * 2 ^ (k + 1), 2, 2 ^ k, false) else (m * 2 ^ (k + 2), 4, 2 ^ k, true)
  else
    if (k =? - 1023) || negb (m =? p52) then (m * 2, 2 ^ (- k + 1), 1, false) else (m * 4, 2 ^ (- k + 2), 1, true).
Definition mplus (mm : Z) (mp2 : bool) : Z := if mp2 then 2 * mm else mm.
(** number.c:4139-4164: scaling by the estimate [est] (which comes from log10) and fixup *)
Definition print_scale (m k est : Z) : Z * Z * Z * bool * Z :=
  match print_init m k with
  | (r, s, mm, mp2) =>
    let s := if 0 <=? est then s * 10 ^ est else s in
    let r := if 0 <=? est then r else r * 10 ^ (- est) in
    let mm := if 0 <=? est then mm else mm * 10 ^ (- est) in
    let fixup := (s <=? r) || (if Z.even m then s <=? r + mplus mm mp2 else s <? r + mplus mm mp2) in
    if fixup then (r, s * 10, mm, mp2, est + 1) else (r, s, mm, mp2, est)
  end.
Definition digit_char (d : Z) : Z := d + 48.
(** number.c:4206-4277, precision < 0: the characters and digs at the end.  A spilled digit
    (spill_fixup) is UB here, so is running out of fuel. *)
Fixpoint print_digits (fuel : nat) (round : bool) (r s mm : Z) (mp2 : bool) (point digs : Z) : res (list Z * Z) :=
  match fuel with
  | O => UB
  | S fuel' =>
    let r10 := r * 10 in
    let q := r10 / s in
    let r := r10 mod s in
    let mm := mm * 10 in
    let mp := mplus mm mp2 in
    let tc1 := if round then r <=? mm else r <? mm in
    let tc2 := if round then s <=? r + mp else s <? r + mp in
    let up := if 9 <? q + 1 then UB else Ok ([digit_char (q + 1)], digs) in
    if negb tc1 then
      if negb tc2 then
        do x <- print_digits fuel' round r s mm mp2 point (digs + 1);
        Ok (digit_char q :: (if digs =? point then [ch_dot] else []) ++ fst x, snd x)
      else up
    else
      if negb tc2 then Ok ([digit_char q], digs)
      else if (if round then r + r <=? s else r + r <? s) then Ok ([digit_char q], digs) else up
  end.
(** number.c:4282-4286 *)
Definition trailing (point digs : Z) : list Z :=
  if digs <=? point then repeat ch_zero (Z.to_nat (point - digs)) ++ [ch_dot; ch_zero] else [].
(** sprintf("%d") of 0 <= n < 1000 *)
Definition small_text (n : Z) : list Z :=
  map digit_char (if n <? 10 then [n] else if n <? 100 then [n / 10; n mod 10] else [n / 100; n / 10 mod 10; n mod 10]).
(** number.c:4291-4317, no exp_width *)
Definition print_exponent (est : Z) (need_exp : bool) : res (list Z) :=
  assert ((est <? 1000) && (- 1000 <? est))
  (let e := est - 1 in
   Ok (if negb (e =? 0) || need_exp then ch_e :: (if e <? 0 then [ch_minus] else []) ++ small_text (Z.abs e) else [])).
(** number.c:4048-4318 print_double, precision < 0, base 10, of a finite double; [est] is
    (int)ceil(log10(val) - 0.1) *)
Definition print_double (neg : bool) (m k est exp_lo exp_hi : Z) : res (list Z) :=
  let sign := if neg then [ch_minus] else [] in
  if m =? 0 then Ok (sign ++ [ch_zero; ch_dot; ch_zero])
  else
    match print_scale m k est with
    | (r, s, mm, mp2, est) =>
      let plain := (est <? exp_hi) && (exp_lo <? est) in
      let point := if plain then est else 1 in
      let lead := if point <=? 0 then ch_zero :: ch_dot :: repeat ch_zero (Z.to_nat (- point)) else [] in
      do x <- print_digits (S (Z.to_nat (Z.log2 s))) (Z.even m) r s mm mp2 point 1;
      do ex <- print_exponent (if plain then 1 else est) (negb plain);
      Ok (sign ++ lead ++ fst x ++ trailing point (snd x) ++ ex)
    end.
