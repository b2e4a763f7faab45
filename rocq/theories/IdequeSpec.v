(** Deques as sequences. *)
From Coq Require Import List Bool Arith.
From Verif Require Import Outcome IdequeModel.
Import ListNotations.

(** [d] is a deque, balanced, whose elements are [l] from front to back *)
Definition holds {A} (d : dq A) (l : list A) : Prop :=
  lenf d = length (f d) /\ lenr d = length (r d) /\ lenf d <= 3 * lenr d + 1 /\ lenr d <= 3 * lenf d + 1 /\
  l = f d ++ rev (r d).
(** the operation returned a deque holding [l] *)
Definition gives {A} (x : res (dq A)) (l : list A) : Prop := exists d, x = Ok d /\ holds d l.
(** longest prefix satisfying p, and the rest *)
Fixpoint takewhile {A} (p : A -> bool) (l : list A) : list A :=
  match l with x :: s => if p x then x :: takewhile p s else [] | [] => [] end.
Fixpoint dropwhile {A} (p : A -> bool) (l : list A) : list A :=
  match l with x :: s => if p x then dropwhile p s else l | [] => [] end.
