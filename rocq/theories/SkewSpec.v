(** Skew lists as sequences. *)
From Coq Require Import List Bool ZArith.
From Verif Require Import Outcome SkewModel.
Import ListNotations.
Local Open Scope Z_scope.

(** pre-order *)
Fixpoint elems {A} (t : stree A) : list A :=
  match t with
  | Leaf x => [x]
  | Node x t1 t2 => x :: elems t1 ++ elems t2
  end.
(** the sequence a skew list stands for *)
Definition contents {A} (sl : skew A) : list A := concat (map (fun p => elems (snd p)) sl).
(** complete binary tree of [w] elements *)
Fixpoint complete {A} (w : Z) (t : stree A) : Prop :=
  match t with
  | Leaf _ => w = 1
  | Node _ t1 t2 => exists v, w = 2 * v + 1 /\ complete v t1 /\ complete v t2
  end.
Definition wf {A} (sl : skew A) : Prop := Forall (fun p => complete (fst p) (snd p)) sl.
(** weights increase strictly, except that the first two may be equal *)
Fixpoint increasing (l : list Z) : Prop :=
  match l with
  | a :: (b :: _) as r => a < b /\ increasing r
  | _ => True
  end.
Definition canonical {A} (sl : skew A) : Prop :=
  wf sl /\ match map fst sl with
           | a :: b :: r => a <= b /\ increasing (b :: r)
           | _ => True
           end.
(** [sl] is a skew list holding [l] *)
Definition holds {A} (sl : skew A) (l : list A) : Prop := canonical sl /\ contents sl = l.

(** the [i]-th element, if [i] is in range *)
Definition at_index {A} (l : list A) (i : Z) : option A := if i <? 0 then None else nth_error l (Z.to_nat i).
(** [l] with its [i]-th element replaced *)
Definition replaced {A} (l : list A) (i : nat) (v : A) : list A := firstn i l ++ v :: skipn (S i) l.
(** the elements at indices [s] (inclusive) to [e] (exclusive) *)
Definition sublist {A} (l : list A) (s e : nat) : list A := firstn (e - s) (skipn s l).
(** the representation starts with two one-element trees *)
Definition starts_1_1 {A} (sl : skew A) : Prop := exists x y r, sl = (1, Leaf x) :: (1, Leaf y) :: r.
(** [k] is the number of elements of some first trees *)
Definition on_boundary {A} (sl : skew A) (k : nat) : Prop := exists i, length (contents (firstn i sl)) = k.
