(** Comparison of real numbers: number.c Scm_NumCmp.  NaN is excluded by its callers
    (number.c:3055-3101), so a double is a signed multiple of 2^-1074 or an infinity. *)
From Coq Require Import ZArith List Bool.
From Verif Require Import Outcome BignumModel IntModel IntSpec RatModel FloModel InexModel.
Import ListNotations.
Local Open Scope Z_scope.

(** ** Doubles *)
Inductive ext := NegInf | F (z : Z) | PosInf.
Definition ext_of (d : bool * flo) : ext :=
  match d with
  | (neg, Fin m k) => F (if neg then - sv m k else sv m k)
  | (neg, Inf) => if neg then NegInf else PosInf
  end.
Definition ext_neg (a : ext) : ext := match a with NegInf => PosInf | F z => F (- z) | PosInf => NegInf end.
(** a - b; [None] is NaN *)
Definition ext_sub (a b : ext) : option ext :=
  match a, b with
  | F x, F y => Some (ext_of (x - y <? 0, rnd (Z.abs (x - y)) 1))
  | F _, NegInf => Some PosInf
  | F _, PosInf => Some NegInf
  | NegInf, NegInf | PosInf, PosInf => None
  | _, _ => Some a
  end.
(** y * 2.0e-52; the constant is the double 5391989333430128 * 2^-224 *)
Definition ext_err (y : ext) : ext :=
  match y with F z => ext_of (z <? 0, rnd (Z.abs z * 5391989333430128) (2 ^ 224)) | _ => y end.
Definition ext_lt (a b : ext) : bool :=
  match a, b with
  | F x, F y => x <? y
  | NegInf, NegInf | PosInf, _ => false
  | NegInf, _ | F _, PosInf => true
  | F _, NegInf => false
  end.
(** r < 0 and r > 0, both false of NaN *)
Definition below (r : option ext) : bool := match r with Some r => ext_lt r (F 0) | None => false end.
Definition above (r : option ext) : bool := match r with Some r => ext_lt (F 0) r | None => false end.

(** ** Exact numbers *)
(** number.c:3144-3164: a fixnum and a ratnum.  SCM_EQ(SCM_INT_VALUE(0), arg0) compares the
    C integer 0 with a tagged word, so it is never true (a tagged fixnum has its low bits set). *)
Definition fix_rat_cmp (v : Z) (n d : num) : res Z :=
  let y := ext_of (get_double (ERat n d)) in
  let err := ext_err y in
  match ext_sub (ext_of (get_double (EInt (Fix v)))) y with
  | Some r =>
      if ext_lt r (ext_neg err) then Ok (-1)
      else if ext_lt err r then Ok 1
      else do p <- num_mul (Fix v) d; num_cmp p n
  | None => UB
  end.
(** number.c:3122-3243 on exact numbers *)
Definition int_rat_cmp (x n d : num) : res Z :=
  match x with
  | Fix v => fix_rat_cmp v n d
  | Bn _ => do p <- num_mul x d; num_cmp p n
  end.
(** number.c:3212-3237 two ratnums *)
Definition rat_rat_cmp (n0 d0 n1 d1 : num) : res Z :=
  let s0 := num_sign n0 in
  let s1 := num_sign n1 in
  if s0 <? s1 then Ok (-1)
  else if s1 <? s0 then Ok 1
  else
    do d <- num_cmp d0 d1;
    if d =? 0 then num_cmp n0 n1
    else
      do c <- num_cmp n0 n1;
      let n := c * s0 in
      if ((0 <? s0) && (0 <? s1) || (s0 <? 0) && (s1 <? 0)) && ((0 <? d) && (n <=? 0)) then Ok (- s0)
      else if ((0 <? s0) && (0 <? s1) || (s0 <? 0) && (s1 <? 0)) && ((d <? 0) && (0 <=? n)) then Ok s0
      else do p <- num_mul n0 d1; do q <- num_mul n1 d0; num_cmp p q.
Definition exact_cmp (x y : exact) : res Z :=
  match x, y with
  | EInt a, EInt b => num_cmp a b
  | EInt a, ERat n d => int_rat_cmp a n d
  | ERat n d, EInt b => do c <- int_rat_cmp b n d; Ok (- c)
  | ERat n0 d0, ERat n1 d1 => rat_rat_cmp n0 d0 n1 d1
  end.

(** ** Mixed comparison *)
(** number.c:352-375 Scm_FlonumIntegerToExact of an integral double, bignum.c:188-210
    Scm_MakeBignumFromDouble.  Simplified: the words of the bignum are those of its absolute
    value, which the shift of the mantissa produces. *)
Fixpoint words_of (fuel : nat) (z : Z) : list Z :=
  match fuel with
  | O => []
  | S f => if z =? 0 then [] else z mod 2 ^ 64 :: words_of f (z / 2 ^ 64)
  end.
Definition int_object (z : Z) : num :=
  if (- 2 ^ 61 <=? z) && (z <? 2 ^ 61) then Fix z else Bn (Big (Z.sgn z) (words_of 17 (Z.abs z))).
(** number.c:1854-1879 Scm_Exact of a finite double; [r2r] is real->rational, called for the
    doubles with a fraction part *)
Definition exact_of (r2r : bool -> Z -> Z -> exact) (neg : bool) (m k : Z) : exact :=
  if sv m k mod 2 ^ 1074 =? 0 then EInt (int_object ((if neg then -1 else 1) * (sv m k / 2 ^ 1074)))
  else r2r neg m k.
(** number.c:1465-1485 double_precision of a nonzero integer object *)
Definition int_double_precision (n : num) : bool :=
  (int_of n =? 0) || double_precision (Z.abs (int_of n)).
Inductive real := Exact (x : exact) | Flo (neg : bool) (f : flo).
(** number.c:3170-3205: a double and an exact number *)
Definition flo_exact_cmp (r2r : bool -> Z -> Z -> exact) (neg : bool) (f : flo) (y : exact) : res Z :=
  match y, f with
  | EInt (Fix v), _ =>
      let r := ext_sub (ext_of (neg, f)) (ext_of (get_double y)) in
      if below r then Ok (-1) else if above r then Ok 1
      else if negb (int_double_precision (Fix v)) then
        match f with Fin m k => exact_cmp (exact_of r2r neg m k) y | Inf => Err end
      else Ok 0
  | _, Inf => Ok (if neg then -1 else 1)
  | _, Fin m k =>
      let r := ext_sub (ext_of (neg, f)) (ext_of (get_double y)) in
      if below r then Ok (-1) else if above r then Ok 1
      else exact_cmp (exact_of r2r neg m k) y
  end.
(** number.c:3122-3245 Scm_NumCmp.  A fixnum before a flonum (3131-3142) is compared by the
    mirror image of the flonum-fixnum case, the others by negating the swapped comparison. *)
Definition num_cmp_real (r2r : bool -> Z -> Z -> exact) (a b : real) : res Z :=
  match a, b with
  | Exact x, Exact y => exact_cmp x y
  | Flo neg f, Flo neg' f' =>
      let r := ext_sub (ext_of (neg, f)) (ext_of (neg', f')) in
      Ok (if below r then -1 else if above r then 1 else 0)
  | Flo neg f, Exact y => flo_exact_cmp r2r neg f y
  | Exact (EInt (Fix v)), Flo neg f =>
      let r := ext_sub (ext_of (get_double (EInt (Fix v)))) (ext_of (neg, f)) in
      if below r then Ok (-1) else if above r then Ok 1
      else if negb (int_double_precision (Fix v)) then
        match f with Fin m k => exact_cmp (EInt (Fix v)) (exact_of r2r neg m k) | Inf => Err end
      else Ok 0
  | Exact x, Flo neg f => do c <- flo_exact_cmp r2r neg f x; Ok (- c)
  end.
(** number.c:3057-3101 Scm_NumEq, Scm_NumLT and the like *)
Definition num_eq_real r2r (a b : real) : res bool := do c <- num_cmp_real r2r a b; Ok (c =? 0).
Definition num_lt_real r2r (a b : real) : res bool := do c <- num_cmp_real r2r a b; Ok (c <? 0).
Definition num_le_real r2r (a b : real) : res bool := do c <- num_cmp_real r2r a b; Ok (c <=? 0).
