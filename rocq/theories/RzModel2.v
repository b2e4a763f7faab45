(** exact of a flonum as an object: number.c:1854-1879 Scm_Exact with real->rational
    (lib/gauche/numutil.scm:76-172) in place of the parameter of [exact_of].  The ratnum
    operations on the way (+, -, /, inverse) are those of RatModel; here their results are
    built from the rational they stand for. *)
From Coq Require Import ZArith QArith.
From Verif Require Import Outcome BignumModel IntModel RatModel FloModel InexModel CmpModel RzModel.
Local Open Scope Z_scope.
(** number.c:692-706 Scm_MakeRational of a numerator and a denominator in lowest terms *)
Definition rat_object (q : Q) : exact :=
  if (Qden q =? 1)%positive then EInt (int_object (Qnum q)) else ERat (int_object (Qnum q)) (int_object (Z.pos (Qden q))).
(** [flonum_to_rational] never fails (RzProofs4.flonum_simplest) *)
Definition r2r_object (neg : bool) (m k : Z) : exact :=
  match flonum_to_rational neg m k with Ok q => rat_object q | _ => EInt (Fix 0) end.
Definition flonum_exact (neg : bool) (m k : Z) : exact := exact_of r2r_object neg m k.
