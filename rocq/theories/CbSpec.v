(** Selections, and the lexicographic order. *)
From Coq Require Import List.
Import ListNotations.
(** c is got from l by leaving out elements *)
Inductive subl {A} : list A -> list A -> Prop :=
  | sub_nil : subl [] []
  | sub_take x c l : subl c l -> subl (x :: c) (x :: l)
  | sub_skip x c l : subl c l -> subl c (x :: l).
Inductive lex {A} (R : A -> A -> Prop) : list A -> list A -> Prop :=
  | lex_hd x y a b : R x y -> lex R (x :: a) (y :: b)
  | lex_tl x a b : lex R a b -> lex R (x :: a) (x :: b).
(** the number of ways to take k of n *)
Fixpoint binom (n k : nat) : nat :=
  match k, n with 0, _ => 1 | S _, 0 => 0 | S k', S n' => binom n' k' + binom n' k end.
