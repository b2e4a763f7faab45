(** Exact numbers as doubles: number.c Scm_GetDouble and bignum.c Scm_BignumToDouble.
    The conversion of ratnums is [rat_to_double] of FloModel. *)
From Coq Require Import ZArith List Bool.
From Verif Require Import Outcome BignumModel IntModel IntSpec RatModel FloModel.
Import ListNotations.
Local Open Scope Z_scope.

(** bignum.c:372-401 Scm_BignumToDouble of the absolute value [b] of a bignum: the mantissa
    field and the exponent field that go to Scm__EncodeDouble.  The bit operations on the
    words are those on the value. *)
Definition bignum_fields (b : Z) : Z * Z :=
  let maxbit := Z.log2 b in
  let exponent := maxbit + 1023 in
  let dst := (b / 2 ^ (maxbit - 52)) mod 2 ^ 52 in
  let '(dst, exponent) :=
    if Z.testbit b (maxbit - 53) && ((dst mod 2 =? 1) || negb (b mod 2 ^ (maxbit - 53) =? 0)) then
      let dst := dst + 1 in
      if 2 ^ 52 <=? dst then (Z.land dst (Z.lnot (2 ^ 52)) / 2, exponent + 1) else (dst, exponent)
    else (dst, exponent) in
  if 2046 <? exponent then (0, 2047) else (dst, exponent).
(** Scm__EncodeDouble (number.c:412-431) of a mantissa field and a nonzero exponent field *)
Definition encode_fields (mant exponent : Z) : flo := if exponent =? 2047 then Inf else Fin (mant + 2 ^ 52) (exponent - 1075).
Definition bignum_to_double (b : Z) : flo := encode_fields (fst (bignum_fields b)) (snd (bignum_fields b)).

(** number.c:1503-1627 Scm_GetDouble of an exact number: the sign and the absolute value.  The
    cast of a fixnum rounds to nearest, ties to even. *)
Definition get_double (x : exact) : bool * flo :=
  match x with
  | EInt (Fix v) => (v <? 0, int_to_double (Z.abs v))
  | EInt (Bn b) => (sign b <? 0, bignum_to_double (Z.abs (int_of (Bn b))))
  | ERat n d => (int_of n <? 0, rat_to_double (Z.abs (int_of n)) (int_of d))
  end.
