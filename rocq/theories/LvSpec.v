(** Edit scripts and their cost. *)
From Coq Require Import List Bool Arith.
Import ListNotations.

Section S.
Context {A : Type}.
Variable elt : A -> A -> bool.
Inductive op := Del (x : A) | Ins (y : A) | Sub (x y : A) | Same (x y : A) | Swap (x x' y y' : A).
Definition ok (o : op) : Prop :=
  match o with Same x y => elt x y = true | Swap x x' y y' => elt x' y = true /\ elt x y' = true | _ => True end.
Definition lhs1 (o : op) := match o with Del x => [x] | Ins _ => [] | Sub x _ => [x] | Same x _ => [x] | Swap x x' _ _ => [x; x'] end.
Definition rhs1 (o : op) := match o with Del _ => [] | Ins y => [y] | Sub _ y => [y] | Same _ y => [y] | Swap _ _ y y' => [y; y'] end.
Definition cost1 (o : op) : nat := match o with Same _ _ => 0 | _ => 1 end.
Definition lhs (s : list op) := flat_map lhs1 s.
Definition rhs (s : list op) := flat_map rhs1 s.
Definition cost (s : list op) : nat := list_sum (map cost1 s).
(** s edits a into b *)
Definition edits (s : list op) (a b : list A) : Prop := Forall ok s /\ lhs s = a /\ rhs s = b.
Definition no_swap (s : list op) : Prop := forall x x' y y', ~ In (Swap x x' y y') s.
(** no pair is swapped that holds the first element of either sequence *)
Definition inner_swaps (s : list op) : Prop :=
  forall s1 x x' y y' s2, s = s1 ++ Swap x x' y y' :: s2 -> lhs s1 <> [] /\ rhs s1 <> [].
(** n is the least cost of a script of the given kind *)
Definition least (kind : list op -> Prop) (a b : list A) (n : nat) : Prop :=
  (exists s, kind s /\ edits s a b /\ cost s = n) /\ forall s, kind s -> edits s a b -> n <= cost s.
(** the value returned with a cutoff *)
Definition cut (cutoff : option nat) (n : nat) : option nat :=
  match cutoff with Some c => if n <=? c then Some n else None | None => Some n end.
End S.
Arguments op : clear implicits.
