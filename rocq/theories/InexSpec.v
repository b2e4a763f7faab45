(** What it means for a flonum to be the one nearest to a rational number. *)
From Coq Require Import ZArith QArith.
From Verif Require Import FloModel FloSpec.
Local Open Scope Z_scope.

(** [r] is a sign and a magnitude: the sign is set exactly for negative [q]; the magnitude is
    the double nearest to |q|, ties to even, or infinity if rounding with an unbounded
    exponent leads beyond the greatest double *)
Definition nearest_flonum (q : Q) (r : bool * flo) : Prop :=
  (fst r = true <-> (q < 0)%Q) /\
  exists m k, nearest (Z.abs (Qnum q) * 2 ^ 1074) (Z.pos (Qden q)) m k /\
    snd r = if 971 <? k then Inf else Fin m k.
