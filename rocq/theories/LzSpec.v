(** What lazy sequences promise, in terms of their histories. *)
From Coq Require Import List Arith.
From Verif Require Import LzModel.
Import ListNotations.

(** the items: the first one and what the generator has returned, in order *)
Definition items (v0 : nat) (h : list ev) : list nat :=
  v0 :: flat_map (fun e => match e with EGen _ _ (Val v) => [v] | _ => [] end) h.
(** the generator has returned EOF *)
Definition ended (h : list ev) : Prop := exists t i, In (EGen t i Eof) h.
(** no run of the generator has ended in an error *)
Definition noerr (h : list ev) : Prop := forall t i, ~ In (EGen t i Err) h.
(** the run of the generator that has not ended *)
Definition running (h : list ev) : option (tid * nat) :=
  fold_left (fun a e => match e with EStart t i => Some (t, i) | EGen _ _ _ => None | _ => a end) h None.
