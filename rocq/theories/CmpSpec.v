(** The order of numbers *)
From Coq Require Import ZArith QArith.
From Verif Require Import BignumModel IntSpec RatModel RatSpec FloModel FloSpec CmpModel.
Local Open Scope Z_scope.

(** -1, 0 or 1 as p < q, p = q or p > q *)
Definition order (p q : Q) : Z := match (p ?= q)%Q with Lt => -1 | Eq => 0 | Gt => 1 end.
(** a negative integer and a negative fraction that round to the same flonum *)
Definition same_flonum (v : Z) (q : Q) : Prop :=
  v < 0 /\ (q < 0)%Q /\ exists m k, nearest (Z.abs v * 2 ^ 1074) 1 m k /\ nearest (Z.abs (Qnum q) * 2 ^ 1074) (Z.pos (Qden q)) m k.
(** one of the two numbers is a fixnum, the other a negative ratnum that rounds to the same
    flonum *)
Definition confused (x y : exact) : Prop :=
  match x, y with
  | EInt (Fix v), ERat _ _ => same_flonum v (rat_of y)
  | ERat _ _, EInt (Fix v) => same_flonum v (rat_of x)
  | _, _ => False
  end.

(** ** The real line with infinities *)
Inductive xreal := MinusInf | Finite (q : Q) | PlusInf.
Definition xorder (a b : xreal) : Z :=
  match a, b with
  | Finite p, Finite q => order p q
  | MinusInf, MinusInf | PlusInf, PlusInf => 0
  | MinusInf, _ | _, PlusInf => -1
  | PlusInf, _ | _, MinusInf => 1
  end.
Definition flo_value (neg : bool) (f : flo) : xreal :=
  match f with
  | Fin m k => Finite ((if neg then - units m k else units m k) # Pos.pow 2 1074)
  | Inf => if neg then MinusInf else PlusInf
  end.
Definition flo_ok (f : flo) : Prop := match f with Fin m k => finite_double m k | Inf => True end.
(** the number a real object stands for *)
Definition real_value (a : real) : xreal := match a with Exact x => Finite (rat_of x) | Flo neg f => flo_value neg f end.
Definition real_ok (a : real) : Prop := match a with Exact x => wf x /\ moderate x | Flo _ f => flo_ok f end.
(** an exact integer or a flonum *)
Definition int_or_flo (a : real) : Prop := match a with Exact (ERat _ _) => False | _ => True end.
