(** What promises promise, in terms of their histories. *)
From Coq Require Import List Arith.
From Verif Require Import PromModel.
Import ListNotations.

(** any schedule *)
Definition any : st -> tid -> Prop := fun _ _ => True.
(** threads take turns only in user code: when a thread goes on, no other is inside force *)
Definition turns : st -> tid -> Prop := fun s t => forall u, u <> t -> th s u = Idle.
(** a promise that is known to be settled: made by eager, or forced before *)
Definition settled_in (h : list ev) (r : nat) : Prop :=
  (exists vs, In (EEager r vs) h) \/ exists t k x, In (EDone t r k x) h.
(** thunks return values or settled promises, as those of delay do *)
Definition tame (h : list ev) : Prop :=
  forall h1 t p k r h2, h = h1 ++ EResult t p k (RProm r) :: h2 -> settled_in h1 r.
(** x is what p is made of: given to eager, or what a run of its thunk ended with *)
Inductive yields (h : list ev) : nat -> pcode -> Prop :=
| Y_eager p vs : In (EEager p vs) h -> yields h p (CVals vs)
| Y_vals t p k vs : In (EResult t p k (RVals vs)) h -> yields h p (CVals vs)
| Y_exc t p k e : In (EResult t p k (RExc e)) h -> yields h p (CExc e)
| Y_prom t p k r x : In (EResult t p k (RProm r)) h -> yields h r x -> yields h p x.
