(** What sorting means. *)
From Coq Require Import List Bool ZArith Permutation.
Import ListNotations.

(** a strict weak order: irreflexive, transitive, incomparability transitive *)
Record strict_weak_order {A} (lt : A -> A -> bool) : Prop := {
  swo_irrefl : forall x, lt x x = false;
  swo_trans : forall x y z, lt x y = true -> lt y z = true -> lt x z = true;
  swo_negtrans : forall x y z, lt x y = false -> lt y z = false -> lt x z = false
}.
(** no element is less than one before it *)
Definition ordered {A} (lt : A -> A -> bool) (l : list A) : Prop :=
  forall i j x y, (i < j)%nat -> nth_error l i = Some x -> nth_error l j = Some y -> lt y x = false.
(** [l] is a sorted version of [l0] *)
Definition sorted_of {A} (lt : A -> A -> bool) (l0 l : list A) : Prop :=
  Permutation l0 l /\ ordered lt l.
(** neither is less than the other *)
Definition equiv {A} (lt : A -> A -> bool) (x y : A) : bool := negb (lt x y) && negb (lt y x).
(** equivalent elements are in the same order in both *)
Definition same_order {A} (lt : A -> A -> bool) (l0 l : list A) : Prop :=
  forall z, filter (equiv lt z) l = filter (equiv lt z) l0.
Definition stably_sorted_of {A} (lt : A -> A -> bool) (l0 l : list A) : Prop :=
  sorted_of lt l0 l /\ same_order lt l0 l.
