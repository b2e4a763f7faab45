(** The simplest rational of a set *)
From Coq Require Import ZArith QArith.
Local Open Scope Z_scope.
(** [r] is in the set, in lowest terms, and no member of the set, however written, has a
    smaller numerator (in absolute value) or a smaller denominator (R7RS 6.2.6) *)
Definition simplest (set : Q -> Prop) (r : Q) : Prop :=
  set r /\ Qred r = r /\ forall p q, set (p # q) -> Z.abs (Qnum r) <= Z.abs p /\ Z.pos (Qden r) <= Z.pos q.
Definition closed (lo hi : Q) (r : Q) : Prop := (lo <= r /\ r <= hi)%Q.
Definition opened (lo hi : Q) (r : Q) : Prop := (lo < r /\ r < hi)%Q.
