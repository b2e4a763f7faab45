(** Immutable maps as finite maps over a comparator. *)
From Coq Require Import List Bool Sorted.
From Verif Require Import Outcome ImapModel.
Import ListNotations.

(** comparator laws: a total preorder *)
Record order_laws {K} (cmp : K -> K -> comparison) : Prop := {
  ol_sym : forall x y, cmp y x = CompOpp (cmp x y);
  ol_trans : forall x y z, cmp x y = Lt -> cmp y z = Lt -> cmp x z = Lt;
  ol_eq : forall x y z, cmp x y = Eq -> cmp x z = cmp y z
}.

(** what an imap went through, the latest operation first *)
Inductive iop (K V : Type) := Put (k : K) (v : V) | Delete (k : K).
Arguments Put {K V} k v.
Arguments Delete {K V} k.

Definition same {K} (cmp : K -> K -> comparison) (x y : K) : bool := match cmp x y with Eq => true | _ => false end.

(** the entry for [k] after the history [h] *)
Fixpoint entry {K V} (cmp : K -> K -> comparison) (h : list (iop K V)) (k : K) : option (K * V) :=
  match h with
  | [] => None
  | Put k' v :: r => if same cmp k k' then Some (k', v) else entry cmp r k
  | Delete k' :: r => if same cmp k k' then None else entry cmp r k
  end.

(** [l] lists the entries of [h] in increasing key order *)
Definition ascending {K V} (cmp : K -> K -> comparison) (l : list (K * V)) : Prop :=
  StronglySorted (fun p q => cmp (fst p) (fst q) = Lt) l.
Definition entries_of {K V} (cmp : K -> K -> comparison) (h : list (iop K V)) (l : list (K * V)) : Prop :=
  ascending cmp l /\ forall p, In p l <-> entry cmp h (fst p) = Some p.

(** the imap obtained by a history (latest operation first) *)
Definition apply_op {K V} (cmp : K -> K -> comparison) (o : iop K V) (t : itree K V) : res (itree K V) :=
  match o with Put k v => insert cmp k v t | Delete k => delete cmp k t end.
Fixpoint run_history {K V} (cmp : K -> K -> comparison) (h : list (iop K V)) : res (itree K V) :=
  match h with [] => Ok E | o :: r => bind (run_history cmp r) (apply_op cmp o) end.
(** length of the longest path *)
Fixpoint height {K V} (t : itree K V) : nat := match t with E => 0 | T _ a _ b => S (Nat.max (height a) (height b)) end.
Definition is_put {K V} (o : iop K V) : Prop := match o with Put _ _ => True | Delete _ => False end.
