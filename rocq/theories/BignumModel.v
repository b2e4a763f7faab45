(** Multiple precision integers: src/bignum.c over the word arithmetic of
    src/gauche/priv/arith.h, for 64-bit [long].

    A bignum is its sign and its [values] array, least significant word first; a word
    is a [Z] meant to lie in 0 .. 2^64-1, and every C operation on u_long is followed
    by [uwrap].  Arrays that the code indexes at random are accessed with [rd] and
    [wr], which answer [UB] outside the array; arrays that the code walks in step with
    its loop counter are walked as lists.  The portable C versions of the UADD, USUB
    and UMUL macros are modelled, not the assembler ones. *)
From Coq Require Import List Bool ZArith.
From Verif Require Import Outcome.
Import ListNotations.
Local Open Scope Z_scope.

(** src/gauche/priv/arith.h:48-65  WORD_BITS, HALF_WORD, LOMASK, LO, HI *)
Definition W : Z := 18446744073709551616.
Definition HW : Z := 4294967296.
Definition LOMASK : Z := HW - 1.
Definition HIMASK : Z := W - HW.
Definition lo (w : Z) : Z := Z.land w LOMASK.
Definition hi (w : Z) : Z := Z.land (Z.shiftr w 32) LOMASK.
(** conversion to u_long *)
Definition uwrap (x : Z) : Z := x mod W.
(** unsigned shifts of a word *)
Definition ushl (x n : Z) : Z := uwrap (Z.shiftl x n).
Definition ushr (x n : Z) : Z := Z.shiftr x n.

(** src/gauche/priv/arith.h:88-95  UADD: (result, carry) *)
Definition uadd (c x y : Z) : Z * Z :=
  let r := uwrap (x + y + c) in
  (r, if (r <? x) || ((r =? x) && ((0 <? y) || (0 <? c))) then 1 else 0).
(** src/gauche/priv/arith.h:144-151  USUB: (result, borrow) *)
Definition usub (c x y : Z) : Z * Z :=
  let r := uwrap (x - y - c) in
  (r, if (x <? r) || ((r =? x) && ((0 <? y) || (0 <? c))) then 1 else 0).
(** src/gauche/priv/arith.h:197-213  UMUL: (hi, lo) *)
Definition umul (x y : Z) : Z * Z :=
  let xl := lo x in let xh := hi x in let yl := lo y in let yh := hi y in
  let l0 := uwrap (xl * yl) in
  let t1 := uwrap (xl * yh) in
  let t2 := uwrap (xh * yl) in
  let h0 := uwrap (xh * yh) in
  let t3 := uwrap (t1 + t2) in
  let h1 := if t3 <? t1 then uwrap (h0 + HW) else h0 in
  let h2 := uwrap (h1 + hi t3) in
  let t4 := ushl (lo t3) 32 in
  let l1 := uwrap (l0 + t4) in
  (if l1 <? t4 then uwrap (h2 + 1) else h2, l1).

(** random access *)
Definition rd (ws : list Z) (i : nat) : res Z := of_opt (nth_error ws i).
Fixpoint upd (ws : list Z) (i : nat) (v : Z) : list Z :=
  match ws, i with
  | [], _ => []
  | _ :: t, O => v :: t
  | w :: t, S j => w :: upd t j v
  end.
Definition wr (ws : list Z) (i : nat) (v : Z) : res (list Z) :=
  if Nat.ltb i (length ws) then Ok (upd ws i v) else UB.

(** src/gauche/number.h:88-93  struct ScmBignumRec *)
Record bignum := Big { sign : Z; words : list Z }.
(** src/gauche/number.h:100  SCM_BIGNUM_MAX_DIGITS *)
Definition MAX_DIGITS : Z := 1073741823.
(** src/bignum.c:113-122  make_bignum; sizes are natural numbers here, so the check for
    a negative size is dropped; memory exhaustion is not modelled *)
Definition make_bignum (size : nat) : res (list Z) :=
  if MAX_DIGITS <? Z.of_nat size then Err else Ok (repeat 0 size).

(** src/bignum.c:139-158  Scm_MakeBignumFromSI *)
Definition bignum_of_si (v : Z) : bignum :=
  if v <? 0 then Big (-1) [- v] else Big 1 [v].
(** src/bignum.c:160-166  Scm_MakeBignumFromUI *)
Definition bignum_of_ui (v : Z) : bignum := Big 1 [v].

(** src/gauche/number.h:54-56 *)
Definition FIX_MAX : Z := 2305843009213693951.
Definition FIX_MIN : Z := -2305843009213693952.
(** A Scheme exact integer: a fixnum or a bignum object *)
Inductive num := Fix (v : Z) | Bn (b : bignum).
(** src/gauche.h:367-368  SCM_MAKE_INT followed by SCM_INT_VALUE: the value is shifted
    left by two bits in a 64-bit word, so the two top bits are lost *)
Definition mkint (v : Z) : num := Fix ((v - FIX_MIN) mod 4611686018427387904 + FIX_MIN).

(** src/bignum.c:230-252  Scm_NormalizeBignum.  [norm_top] is the value of i at the end
    of the loop *)
Fixpoint norm_top (i : nat) (ws : list Z) : nat :=
  match i with
  | O => O
  | S j => if nth i ws 0 =? 0 then norm_top j ws else i
  end.
Definition normalize (b : bignum) : num :=
  match words b with
  | [] => Bn b
  | w0 :: _ =>
    let i := norm_top (length (words b) - 1) (words b) in
    let keep := Bn (Big (sign b) (firstn (S i) (words b))) in
    match i with
    | O => if sign b =? 0 then mkint 0
           else if (0 <? sign b) && (w0 <=? FIX_MAX) then mkint w0
           else if (sign b <? 0) && (w0 <=? - FIX_MIN) then mkint (- w0)
           else keep
    | S _ => keep
    end
  end.

(** src/bignum.c:430-435  Scm_BignumNegate *)
Definition bignum_negate (b : bignum) : num := normalize (Big (- sign b) (words b)).

(** src/bignum.c:448-451, 459-464: the loops comparing words from the most significant
    one; the arguments are the words in that order *)
Fixpoint cmp_down (xs ys : list Z) : Z :=
  match xs, ys with
  | x :: xt, y :: yt => if x <? y then -1 else if y <? x then 1 else cmp_down xt yt
  | _, _ => 0
  end.
(** src/bignum.c:442-453  Scm_BignumCmp *)
Definition bignum_cmp (bx by_ : bignum) : Z :=
  if sign bx <? sign by_ then -1
  else if sign by_ <? sign bx then 1
  else if Nat.ltb (length (words bx)) (length (words by_)) then (if 0 <? sign bx then -1 else 1)
  else if Nat.ltb (length (words by_)) (length (words bx)) then (if 0 <? sign bx then 1 else -1)
  else let c := cmp_down (rev (words bx)) (rev (words by_)) in
       if c =? 0 then 0 else if 0 <? sign bx then c else - c.
(** src/bignum.c:456-465  Scm_BignumAbsCmp *)
Definition bignum_abscmp (xs ys : list Z) : Z :=
  if Nat.ltb (length xs) (length ys) then -1
  else if Nat.ltb (length ys) (length xs) then 1
  else cmp_down (rev xs) (rev ys).

(** src/bignum.c:527-541  bignum_safe_size_for_add *)
Definition safe_size_for_add (xs ys : list Z) : nat :=
  let xsize := length xs in let ysize := length ys in
  if Nat.ltb ysize xsize then (if last xs 0 =? W - 1 then S xsize else xsize)
  else if Nat.ltb xsize ysize then (if last ys 0 =? W - 1 then S ysize else ysize)
  else S xsize.
(** src/bignum.c:544-553  bignum_2scmpl; the carry starts at 1 *)
Fixpoint twoscmpl_loop (c : Z) (ws : list Z) : list Z :=
  match ws with
  | [] => []
  | v :: t => let '(r, c1) := uadd c (W - 1 - v) 0 in r :: twoscmpl_loop c1 t
  end.
Definition twoscmpl (ws : list Z) : list Z := twoscmpl_loop 1 ws.
(** src/bignum.c:564-591  bignum_add_int: rsize words of the result.  The four branches
    on xsize <= 0 and ysize <= 0 read 0 for an exhausted operand; here [hd 0] and [tl]
    do.  The carry out of the top word is dropped. *)
Fixpoint add_int (rsize : nat) (c : Z) (xs ys : list Z) : list Z :=
  match rsize with
  | O => []
  | S n => let '(r, c1) := uadd c (hd 0 xs) (hd 0 ys) in r :: add_int n c1 (tl xs) (tl ys)
  end.
(** src/bignum.c:595-627  bignum_sub_int: the words and the final borrow *)
Fixpoint sub_int_loop (rsize : nat) (c : Z) (xs ys : list Z) : list Z * Z :=
  match rsize with
  | O => ([], c)
  | S n => let '(r, c1) := usub c (hd 0 xs) (hd 0 ys) in
           let '(rest, cf) := sub_int_loop n c1 (tl xs) (tl ys) in (r :: rest, cf)
  end.
Definition sub_int (rsize : nat) (sgn : Z) (xs ys : list Z) : bignum :=
  let '(ws, c) := sub_int_loop rsize 0 xs ys in
  if c =? 0 then Big sgn ws else Big (0 - sgn) (twoscmpl ws).
(** src/bignum.c:630-641  bignum_add *)
Definition bignum_add_raw (bx by_ : bignum) : res bignum :=
  let rsize := safe_size_for_add (words bx) (words by_) in
  do _br <- make_bignum rsize;
  Ok (if sign bx =? sign by_ then Big (sign bx) (add_int rsize 0 (words bx) (words by_))
      else sub_int rsize (sign bx) (words bx) (words by_)).
(** src/bignum.c:644-655  bignum_sub *)
Definition bignum_sub_raw (bx by_ : bignum) : res bignum :=
  let rsize := safe_size_for_add (words bx) (words by_) in
  do _br <- make_bignum rsize;
  Ok (if sign bx =? sign by_ then sub_int rsize (sign bx) (words bx) (words by_)
      else Big (sign bx) (add_int rsize 0 (words bx) (words by_))).
(** src/bignum.c:658-680  bignum_add_si; [op] is UADD or USUB *)
Fixpoint add_si_loop (op : Z -> Z -> Z -> Z * Z) (c yabs : Z) (xs : list Z) : list Z :=
  match xs with
  | [] => [c]
  | x :: t => let '(r, c1) := op c x yabs in r :: add_si_loop op c1 0 t
  end.
Definition bignum_add_si_raw (bx : bignum) (y : Z) : res bignum :=
  do _br <- make_bignum (S (length (words bx)));
  let yabs := uwrap (if y <? 0 then - y else y) in
  let ysign := if y <? 0 then -1 else 1 in
  Ok (Big (sign bx) (add_si_loop (if sign bx =? ysign then uadd else usub) 0 yabs (words bx))).
(** src/bignum.c:682-702  Scm_BignumAdd, Sub, AddSI, SubSI *)
Definition bignum_add (bx by_ : bignum) : res num := do r <- bignum_add_raw bx by_; Ok (normalize r).
Definition bignum_sub (bx by_ : bignum) : res num := do r <- bignum_sub_raw bx by_; Ok (normalize r).
Definition bignum_add_si (bx : bignum) (y : Z) : res num :=
  if y =? 0 then Ok (Bn bx) else do r <- bignum_add_si_raw bx y; Ok (normalize r).
Definition bignum_sub_si (bx : bignum) (y : Z) : res num :=
  if y =? 0 then Ok (Bn bx) else do r <- bignum_add_si_raw bx (- y); Ok (normalize r).

(** src/bignum.c:710-736  bignum_rshift, as called: on itself (src/bignum.c:959, the
    shift is less than a word) and into a fresh array (src/bignum.c:1073).  The loop
    writes br[i-nwords] for i = nwords .. size-1, reading bx, which is br when
    [alias].  [n] counts the remaining iterations. *)
Fixpoint rshift_loop (n : nat) (alias : bool) (br bx : list Z) (nwords i : nat) (nbits : Z) : res (list Z) :=
  match n with
  | O => Ok br
  | S m =>
    let src := if alias then br else bx in
    do x0 <- rd src i;
    do v <- (if nbits =? 0 then Ok x0
             else if Nat.eqb m 0 then Ok (ushr x0 nbits)
             else do x1 <- rd src (S i); Ok (Z.lor (ushl x1 (64 - nbits)) (ushr x0 nbits)));
    do br1 <- wr br (i - nwords) v;
    rshift_loop m alias br1 bx nwords (S i) nbits
  end.
(** the result has size bx->size - nwords; [sign] is bx's *)
Definition rshift (alias : bool) (br bx : list Z) (amount : Z) : res (list Z) :=
  let nwords := Z.to_nat (amount / 64) in
  let nbits := amount mod 64 in
  if Nat.leb (length bx) nwords then do _b <- wr br 0 0; Ok []
  else do br1 <- rshift_loop (length bx - nwords) alias br bx nwords nwords nbits;
       Ok (firstn (length bx - nwords) br1).

(** for (i = n-1; i >= 0; i--) if (size > i+off) br[i+off] = f(i) *)
Fixpoint wr_down (n : nat) (f : nat -> Z) (off : nat) (br : list Z) : list Z :=
  match n with
  | O => br
  | S i => wr_down i f off (if Nat.ltb (i + off) (length br) then upd br (i + off) (f i) else br)
  end.
(** for (i = n-1; i >= 0; i--) br[i] = 0 *)
Fixpoint clear_down (n : nat) (br : list Z) : res (list Z) :=
  match n with
  | O => Ok br
  | S i => do b <- wr br i 0; clear_down i b
  end.
(** src/bignum.c:740-770  bignum_lshift; br and bx are different objects in all calls.
    In the general branch the guarded loop runs over i = size-1 .. 1, modelled as index
    i-1 with offset nwords+1 *)
Definition lshift (br bx : list Z) (amount : Z) : res (list Z) :=
  let nwords := Z.to_nat (amount / 64) in
  let nbits := amount mod 64 in
  let n := length bx in
  if nbits =? 0 then
    clear_down nwords (wr_down n (fun i => nth i bx 0) nwords br)
  else
    do br1 <- (if Nat.ltb (n + nwords) (length br)
               then do t <- rd bx (n - 1); wr br (n + nwords) (ushr t (64 - nbits))
               else Ok br);
    let br2 := wr_down (n - 1) (fun i => Z.lor (ushl (nth (S i) bx 0) nbits) (ushr (nth i bx 0) (64 - nbits)))
                       (S nwords) br1 in
    do x0 <- rd bx 0;
    do br3 <- wr br2 nwords (ushl x0 nbits);
    clear_down nwords br3.

(** src/bignum.c:791-795  the carry propagation of bignum_mul_word: for (j=..; c && j<size; j++);
    [n] bounds the iterations *)
Fixpoint mul_carry (n : nat) (br : list Z) (j : nat) (c : Z) : res (list Z) :=
  match n with
  | O => Ok br
  | S m =>
    if (c =? 0) || negb (Nat.ltb j (length br)) then Ok br
    else do r0 <- rd br j;
         let '(r1, c1) := uadd c r0 0 in
         do br1 <- wr br j r1;
         mul_carry m br1 (S j) c1
  end.
(** src/bignum.c:777-798  bignum_mul_word; [xs] are the words of bx from i on, [p] = i+off *)
Fixpoint mul_word (br xs : list Z) (y : Z) (p : nat) : res (list Z) :=
  match xs with
  | [] => Ok br
  | x :: t =>
    let '(h, l) := umul x y in
    do r0 <- rd br p;
    let '(r1, c1) := uadd 0 r0 l in
    do br1 <- wr br p r1;
    do r2 <- rd br1 (S p);
    let '(r3, c2) := uadd c1 r2 h in
    do br2 <- wr br1 (S p) r3;
    do br3 <- mul_carry (length br) br2 (p + 2) c2;
    mul_word br3 t y (S p)
  end.
(** src/bignum.c:801-809  bignum_mul *)
Fixpoint mul_loop (br xs ys : list Z) (off : nat) : res (list Z) :=
  match ys with
  | [] => Ok br
  | y :: t => do br1 <- mul_word br xs y off; mul_loop br1 xs t (S off)
  end.
Definition bignum_mul_raw (bx by_ : bignum) : res bignum :=
  do br <- make_bignum (length (words bx) + length (words by_));
  do r <- mul_loop br (words bx) (words by_) 0;
  Ok (Big (sign bx * sign by_) r).

(** src/gauche/bits_inline.h:75-95  Scm__LowestBitNumber *)
Definition lowest_bit_number (w : Z) : Z :=
  let word := Z.lxor w (Z.land w (uwrap (w - 1))) in
  let n (m k : Z) := if Z.land word m =? 0 then 0 else k in
  n 18446744069414584320 32 + n 18446462603027742720 16 + n 18374966859414961920 8
  + n 17361641481138401520 4 + n 14757395258967641292 2 + n 12297829382473034410 1.
(** src/gauche/bits_inline.h:99-118  Scm__HighestBitNumber *)
Definition hbn_step (m k : Z) (s : Z * Z) : Z * Z :=
  let '(n, word) := s in
  let z := Z.land word m in if z =? 0 then s else (n + k, z).
Definition highest_bit_number (w : Z) : Z :=
  let s1 := hbn_step 18446744069414584320 32 (0, w) in
  let s2 := hbn_step 18446462603027742720 16 s1 in
  let s3 := hbn_step 18374966859414961920 8 s2 in
  let s4 := hbn_step 17361641481138401520 4 s3 in
  let '(n, word) := hbn_step 14757395258967641292 2 s4 in
  if Z.land word 12297829382473034410 =? 0 then n else n + 1.

(** src/bignum.c:812-833  bignum_mul_si; y is not 0 or 1 *)
Definition bignum_mul_si_raw (bx : bignum) (y : Z) : res bignum :=
  if y =? -1 then Ok (Big (- sign bx) (words bx))
  else
    do br <- make_bignum (S (length (words bx)));
    if negb (Z.land y (y - 1) =? 0) then
      let yabs := uwrap (if y <? 0 then - y else y) in
      do r <- mul_word br (words bx) yabs 0;
      Ok (Big (if y <? 0 then - sign bx else sign bx) r)
    else
      do r <- lshift br (words bx) (lowest_bit_number (uwrap y));
      Ok (Big (sign bx) r).
(** src/bignum.c:835-846  Scm_BignumMul, Scm_BignumMulSI *)
Definition bignum_mul (bx by_ : bignum) : res num := do r <- bignum_mul_raw bx by_; Ok (normalize r).
Definition bignum_mul_si (bx : bignum) (y : Z) : res num :=
  if y =? 1 then Ok (Bn bx) else if y =? 0 then Ok (mkint 0)
  else do r <- bignum_mul_si_raw bx y; Ok (normalize r).

(** src/bignum.c:853-862  div_normalization_factor *)
Fixpoint dnf_loop (n : nat) (w b c : Z) : res Z :=
  match n with
  | O => Panic
  | S m => if 0 <? b then (if negb (Z.land w b =? 0) then Ok c else dnf_loop m w (ushr b 1) (c + 1)) else Panic
  end.
Definition div_normalization_factor (w : Z) : res Z := dnf_loop 65 w (ushl 1 63) 0.

(** src/bignum.c:876-891  DIGIT, DIGIT2, SETDIGIT, SETDIGIT2 *)
Definition digit (num : list Z) (n : nat) : res Z :=
  do w <- rd num (Nat.div2 n); Ok (if Nat.odd n then hi w else lo w).
Definition digit2 (num : list Z) (n : nat) : res Z :=
  do w <- rd num (Nat.div2 n);
  if Nat.odd n then do w1 <- rd num (S (Nat.div2 n)); Ok (Z.lor (ushl (lo w1) 32) (hi w))
  else Ok w.
Definition setdigit (num : list Z) (n : nat) (v : Z) : res (list Z) :=
  do w <- rd num (Nat.div2 n);
  wr num (Nat.div2 n) (if Nat.odd n then Z.lor (Z.land w LOMASK) (ushl v 32)
                       else Z.lor (Z.land w HIMASK) (Z.land v LOMASK)).
Definition setdigit2 (num : list Z) (n : nat) (v : Z) : res (list Z) :=
  if Nat.odd n then
    do w <- rd num (Nat.div2 n);
    do num1 <- wr num (Nat.div2 n) (Z.lor (lo w) (ushl v 32));
    do w1 <- rd num1 (S (Nat.div2 n));
    wr num1 (S (Nat.div2 n)) (Z.lor (Z.land w1 HIMASK) (hi v))
  else wr num (Nat.div2 n) v.
(** u_long division *)
Definition udiv (x y : Z) : res Z := if y =? 0 then UB else Ok (x / y).
Definition umod (x y : Z) : res Z := if y =? 0 then UB else Ok (x mod y).

(** src/bignum.c:923  while (qq >= HALF_WORD) ...; fuel: three iterations are enough,
    running out is UB *)
Fixpoint est1 (fuel : nat) (qq rr vn1 : Z) : res (Z * Z) :=
  match fuel with
  | O => UB
  | S f => if HW <=? qq then est1 f (uwrap (qq - 1)) (uwrap (rr + vn1)) vn1 else Ok (qq, rr)
  end.
(** src/bignum.c:924-926 *)
Fixpoint est2 (fuel : nat) (qq rr vn1 vn2 uj2 : Z) : res Z :=
  match fuel with
  | O => UB
  | S f => if (uwrap (ushl rr 32 + uj2) <? uwrap (qq * vn2)) && (rr <? HW)
           then est2 f (uwrap (qq - 1)) (uwrap (rr + vn1)) vn1 vn2 uj2
           else Ok qq
  end.
(** src/bignum.c:931-938: multiply and subtract; [n] iterations remain, [k] is the index *)
Fixpoint gdiv_sub (n : nat) (u v : list Z) (qq cy : Z) (j k : nat) : res (list Z * Z) :=
  match n with
  | O => Ok (u, cy)
  | S m =>
    do dv <- digit v k;
    let vv := uwrap (qq * dv) in
    do uj <- digit2 u (j + k);
    let uj2 := uwrap (uj - vv - cy) in
    let cy1 := if uj <? uj2 then HW else 0 in
    do u1 <- setdigit2 u (j + k) uj2;
    gdiv_sub m u1 v qq cy1 j (S k)
  end.
(** src/bignum.c:947-953: add back *)
Fixpoint gdiv_addback (n : nat) (u v : list Z) (cy : Z) (j k : nat) : res (list Z * Z) :=
  match n with
  | O => Ok (u, cy)
  | S m =>
    do vv <- digit v k;
    do u0 <- digit u (j + k);
    let uj := uwrap (u0 + vv + cy) in
    let cy1 := if HW <=? uj then 1 else 0 in
    do u1 <- setdigit u (j + k) uj;
    gdiv_addback m u1 v cy1 j (S k)
  end.
(** src/bignum.c:915-958: for (j = m; j >= 0; j--); [jn] = j+1 *)
Fixpoint gdiv_loop (jn : nat) (u v q : list Z) (n : nat) (vn1 vn2 : Z) : res (list Z * list Z) :=
  match jn with
  | O => Ok (u, q)
  | S j =>
    do d1 <- digit u (j + n);
    do d0 <- digit u (j + n - 1);
    let uu := uwrap (ushl d1 32 + d0) in
    do qq0 <- udiv uu vn1;
    do rr0 <- umod uu vn1;
    do p <- est1 4 qq0 rr0 vn1;
    do d2 <- digit u (j + n - 2);
    do qq <- est2 4 (fst p) (snd p) vn1 vn2 d2;
    do s <- gdiv_sub n u v qq 0 j 0;
    let '(u1, cy) := s in
    do s2 <- (if cy =? 0 then Ok (u1, qq)
              else do a <- gdiv_addback n u1 v 0 j 0;
                   let '(u2, cy2) := a in
                   do t <- digit u2 (j + n);
                   do u3 <- setdigit u2 (j + n) (uwrap (t + cy2));
                   Ok (u3, uwrap (qq - 1)));
    let '(u4, qq4) := s2 in
    do q1 <- setdigit q j qq4;
    gdiv_loop j u4 v q1 n vn1 vn2
  end.
(** src/bignum.c:868-966  bignum_gdiv: (quotient words, remainder words), given the
    array allocated for the quotient *)
Definition gdiv (dividend divisor quotient : list Z) : res (list Z * list Z) :=
  do t <- rd divisor (length divisor - 1);
  do d0 <- div_normalization_factor t;
  do u0 <- make_bignum (S (length dividend));
  let '(d, n) := if 32 <=? d0 then (d0 - 32, (2 * length divisor - 1)%nat)
                 else (d0, (2 * length divisor)%nat) in
  let m := (2 * length dividend - n)%nat in
  do u <- lshift u0 dividend d;
  do v <- lshift (repeat 0 (length divisor)) divisor d;
  do vn1 <- digit v (n - 1);
  do vn2 <- digit v (n - 2);
  do r <- gdiv_loop (S m) u v quotient n vn1 vn2;
  do rem <- rshift true (fst r) (fst r) d;
  Ok (snd r, rem).

(** src/bignum.c:970-989  bignum_sdiv.  [pn] is pu[n], [rest] is pu[n-1], .., pu[0]; the
    quotient words come out most significant first *)
Fixpoint sdiv_loop (divisor pn q0 : Z) (rest : list Z) : list Z * Z :=
  match rest with
  | [] => ([uwrap (pn / divisor + q0)], pn mod divisor)
  | p :: t =>
    let q1 := uwrap (pn / divisor + q0) in
    let r1 := uwrap (ushl (pn mod divisor) 32 + hi p) in
    let q0' := ushl (r1 / divisor) 32 in
    let r0 := r1 mod divisor in
    let p' := uwrap (ushl r0 32 + lo p) in
    let '(qs, r) := sdiv_loop divisor p' q0' t in (q1 :: qs, r)
  end.
Definition sdiv (dividend : list Z) (divisor : Z) : res (list Z * Z) :=
  if divisor =? 0 then UB
  else match rev dividend with
       | [] => UB
       | p :: t => let '(qs, r) := sdiv_loop divisor p 0 t in Ok (rev qs, r)
       end.

(** conversion of a u_long to long *)
Definition slong (x : Z) : Z := (x + 9223372036854775808) mod W - 9223372036854775808.
(** src/bignum.c:992-1015  Scm_BignumDivSI: (quotient, remainder) *)
Definition bignum_divsi (dividend : bignum) (divisor : Z) : res (num * Z) :=
  let dd := uwrap (if divisor <? 0 then - divisor else divisor) in
  let d_sign := if divisor <? 0 then -1 else 1 in
  do qr <- (if dd <? HW then sdiv (words dividend) dd
            else do q <- make_bignum (S (length (words dividend)));
                 do p <- gdiv (words dividend) (words (bignum_of_si (slong dd))) q;
                 do r0 <- rd (snd p) 0;
                 Ok (fst p, r0));
  let '(q, rr) := qr in
  Ok (normalize (Big (sign dividend * d_sign) q),
      if sign dividend <? 0 then slong (- slong rr) else slong rr).

(** src/bignum.c:1044-1051: the inner loop of Scm_BignumRemSI; running out of fuel is UB *)
Fixpoint remsi_word (fuel : nat) (m x total_shift shift dd : Z) : res Z :=
  match fuel with
  | O => UB
  | S f =>
    if total_shift <? 64 then
      let s := if total_shift + shift <? 64 then shift else 64 - total_shift in
      let m1 := Z.lor (ushl m s) (ushr x (64 - s)) in
      do m2 <- umod m1 dd;
      remsi_word f m2 (ushl x s) (total_shift + s) shift dd
    else Ok m
  end.
Fixpoint remsi_loop (ws : list Z) (m shift dd : Z) : res Z :=
  match ws with
  | [] => Ok m
  | x :: t => do m1 <- remsi_word 66 m x 0 shift dd; remsi_loop t m1 shift dd
  end.
(** src/bignum.c:1019-1056  Scm_BignumRemSI, the branch for 64-bit long *)
Definition bignum_remsi (dividend : bignum) (divisor : Z) : res Z :=
  let dd := uwrap (if divisor <? 0 then - divisor else divisor) in
  let shift := 64 - highest_bit_number dd - 1 in
  do m <- remsi_loop (rev (words dividend)) 0 shift dd;
  Ok (slong m * sign dividend).

(** src/bignum.c:1060-1075  Scm_BignumDivRem *)
Definition bignum_divrem (dividend divisor : bignum) : res (num * num) :=
  if bignum_abscmp (words dividend) (words divisor) <? 0 then Ok (mkint 0, Bn dividend)
  else
    do q0 <- make_bignum (length (words dividend) - length (words divisor) + 1);
    do p <- gdiv (words dividend) (words divisor) q0;
    Ok (normalize (Big (sign dividend * sign divisor) (fst p)),
        normalize (Big (sign dividend) (snd p))).
