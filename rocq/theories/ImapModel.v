(** lib/data/imap.scm: immutable maps as functional red-black trees.
    [cmp] is (comparator-compare cmpr _ _); the record that carries the tree and the
    comparator is left out.  The E node (#f) is [E]. *)
From Coq Require Import List Bool.
From Verif Require Import Outcome.
Import ListNotations.

Notation "'do' ' p <- e ; f" := (bind e (fun x => let p := x in f))
  (at level 200, p strict pattern, e at level 100, f at level 200, right associativity).

Inductive color := R | B.
(** lib/data/imap.scm:58-60  T, E? *)
Inductive itree (K V : Type) := E | T (c : color) (a : itree K V) (p : K * V) (b : itree K V).
Arguments E {K V}.
Arguments T {K V} c a p b.

Section Imap.
Context {K V : Type} (cmp : K -> K -> comparison).
Notation tree := (itree K V).

(** lib/data/imap.scm:62-70  balance *)
Definition balance (col : color) (l : tree) (e : K * V) (r : tree) : tree :=
  match col, l, e, r with
  | B, T R (T R a x b) y c, z, d => T R (T B a x b) y (T B c z d)
  | B, T R a x (T R b y c), z, d => T R (T B a x b) y (T B c z d)
  | B, a, x, T R (T R b y c) z d => T R (T B a x b) y (T B c z d)
  | B, a, x, T R b y (T R c z d) => T R (T B a x b) y (T B c z d)
  | _, _, _, _ => T col l e r
  end.
(** lib/data/imap.scm:72-78  get *)
Fixpoint get (key : K) (t : tree) : option (K * V) :=
  match t with
  | E => None
  | T _ a p b => match cmp key (fst p) with Lt => get key a | Eq => Some p | Gt => get key b end
  end.
(** lib/data/imap.scm:80-90  insert *)
Fixpoint ins (key : K) (val : V) (t : tree) : tree :=
  match t with
  | E => T R E (key, val) E
  | T c a p b =>
      match cmp key (fst p) with
      | Lt => balance c (ins key val a) p b
      | Eq => T c a (key, val) b
      | Gt => balance c a p (ins key val b)
      end
  end.
Definition insert (key : K) (val : V) (t : tree) : res tree :=
  match ins key val t with E => Err | T _ a p b => Ok (T B a p b) end.
(** lib/data/imap.scm:92-98  populate *)
Fixpoint populate (t : tree) (alist : list (K * V)) : res tree :=
  match alist with
  | [] => Ok t
  | (k, v) :: r => do t1 <- insert k v t; populate t1 r
  end.
(** lib/data/imap.scm:100-123  delete *)
Fixpoint del_min (t : tree) : res ((K * V) * tree) :=
  match t with
  | E => Err
  | T _ E p E => Ok (p, E)
  | T _ E p b => Ok (p, b)
  | T c a p b => do ' (m, a1) <- del_min a; Ok (m, balance c a1 p b)
  end.
Fixpoint del (key : K) (t : tree) : res tree :=
  match t with
  | E => Ok E
  | T c a p b =>
      match cmp key (fst p) with
      | Lt => do a1 <- del key a; Ok (balance c a1 p b)
      | Eq => match a, b with
              | E, _ => Ok b
              | _, E => Ok a
              | _, _ => do ' (m, b1) <- del_min b; Ok (balance c a m b1)
              end
      | Gt => do b1 <- del key b; Ok (balance c a p b1)
      end
  end.
Definition delete (key : K) (t : tree) : res tree :=
  do t1 <- del key t;
  match t1 with E => Ok E | T _ a p b => Ok (T B a p b) end.

(** lib/data/imap.scm:174-179  imap-get *)
Definition imap_get (t : tree) (key : K) (default : option V) : res V :=
  match get key t, default with
  | Some p, _ => Ok (snd p)
  | None, Some d => Ok d
  | None, None => Err
  end.
(** lib/data/imap.scm:170-172  imap-exists? *)
Definition imap_exists (t : tree) (key : K) : bool := match get key t with Some _ => true | None => false end.
(** lib/data/imap.scm:194-210  imap-min, imap-max *)
Fixpoint imap_min (t : tree) : option (K * V) :=
  match t with E => None | T _ a p _ => match a with E => Some p | _ => imap_min a end end.
Fixpoint imap_max (t : tree) : option (K * V) :=
  match t with E => None | T _ _ p b => match b with E => Some p | _ => imap_max b end end.
(** lib/data/imap.scm:213-227  %imap-fold, %imap-fold-right *)
Fixpoint imap_fold {S} (t : tree) (proc : K * V -> S -> S) (seed : S) : S :=
  match t with E => seed | T _ a p b => imap_fold b proc (proc p (imap_fold a proc seed)) end.
Fixpoint imap_fold_right {S} (t : tree) (proc : K * V -> S -> S) (seed : S) : S :=
  match t with E => seed | T _ a p b => imap_fold_right a proc (proc p (imap_fold_right b proc seed)) end.
(** lib/data/imap.scm:230-245  the [next] of call-with-iterator; [q] is the queue behind the
    tree taken out of it *)
Fixpoint next_from (t : tree) (q : list tree) : res ((K * V) * list tree) :=
  match t with
  | E => Err
  | T c a p b =>
      match a with
      | E => Ok (p, match b with E => q | _ => b :: q end)
      | _ => next_from a (T c E p b :: q)
      end
  end.
(** next until the queue is empty *)
Fixpoint iterate (fuel : nat) (q : list tree) : res (list (K * V)) :=
  match q with
  | [] => Ok []
  | t :: r =>
      match fuel with
      | O => UB
      | S f => do ' (p, q1) <- next_from t r; do l <- iterate f q1; Ok (p :: l)
      end
  end.
Fixpoint node_count (t : tree) : nat := match t with E => 0 | T _ a _ b => S (node_count a + node_count b) end.
Definition imap_iterate (t : tree) : res (list (K * V)) :=
  match t with E => Ok [] | _ => iterate (node_count t) [t] end.
End Imap.
