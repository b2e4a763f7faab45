(** Multisets up to a predicate. *)
From Coq Require Import List.
Import ListNotations.
Section S.
Context {A : Type}.
Variable eq : A -> A -> bool.
(** how many elements of l are eq to x *)
Definition count (x : A) (l : list A) : nat := length (filter (eq x) l).
Definition same (c d : list A) : Prop := forall x, count x c = count x d.
Definition part (c l : list A) : Prop := forall x, count x c <= count x l.
Definition equivalence : Prop :=
  (forall x, eq x x = true) /\ (forall x y, eq x y = true -> eq y x = true) /\ (forall x y z, eq x y = true -> eq y z = true -> eq x z = true).
End S.
