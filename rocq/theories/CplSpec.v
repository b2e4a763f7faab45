(** Consistent orders of a family of sequences. *)
From Coq Require Import List.
Import ListNotations.
(** [subseq s r]: s can be obtained from r by deleting elements *)
Inductive subseq {A} : list A -> list A -> Prop :=
| sub_nil : forall r, subseq [] r
| sub_take : forall x s r, subseq s r -> subseq (x :: s) (x :: r)
| sub_skip : forall x s r, subseq s r -> subseq s (x :: r).
(** a consistent order: no element twice, and every sequence in its own order *)
Definition consistent {A} (seqs : list (list A)) (r : list A) : Prop :=
  NoDup r /\ forall s, In s seqs -> subseq s r.
