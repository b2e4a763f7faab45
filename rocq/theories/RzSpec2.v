(** Real numbers and the exact numbers they are compared as *)
From Coq Require Import ZArith QArith.
From Verif Require Import BignumModel IntSpec RatModel RatSpec FloModel FloSpec CmpModel CmpSpec RzModel2.
Local Open Scope Z_scope.
(** the least normal double *)
Definition least_normal : Q := 1 # Pos.pow 2 1022.
(** not negative (except -0.0 and -inf.0), and no ratnum or flonum strictly between 0 and
    2^-1022 *)
Definition tame (a : real) : Prop :=
  match a with
  | Exact (EInt n) => canonical n /\ moderate (EInt n) /\ 0 <= int_of n
  | Exact x => wf x /\ moderate x /\ (least_normal <= rat_of x)%Q
  | Flo neg (Fin m k) => finite_double m k /\ (m = 0 \/ neg = false /\ 4503599627370496 <= m)
  | Flo _ Inf => True
  end.
(** the number itself; of a finite flonum, what exact makes of it *)
Definition exact_value (a : real) : xreal :=
  match a with
  | Exact x => Finite (rat_of x)
  | Flo neg (Fin m k) => Finite (rat_of (flonum_exact neg m k))
  | Flo neg Inf => if neg then MinusInf else PlusInf
  end.
