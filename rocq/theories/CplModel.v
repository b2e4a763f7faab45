(** Scm_MonotonicMerge (src/list.c) and Scm_ComputeCPL (src/class.c).  Objects are
    compared by identity: they are modelled by natural numbers, [FALSE] being #f. *)
From Coq Require Import List Bool Arith.
From Verif Require Import Outcome.
Import ListNotations.

Definition FALSE : nat := 0.
(** a sequence: its elements, and whether it ends in something other than () *)
Record seq := Seq { elems : list nat; dotted : bool }.

(** src/list.c Scm_Memq *)
Definition memq (x : nat) (l : list nat) : bool := existsb (Nat.eqb x) l.
Definition nullp (s : seq) : bool := match elems s with [] => negb (dotted s) | _ => false end.
(** src/list.c:780-786: is h in the cdr of some sequence? *)
Definition blocked (h : nat) (all : list seq) : bool :=
  existsb (fun t => match elems t with [] => false | _ :: r => memq h r end) all.
(** src/list.c:774-790: select the candidate *)
Fixpoint select (all ss : list seq) : nat :=
  match ss with
  | [] => FALSE
  | s :: t => match elems s with
              | [] => select all t
              | h :: _ => if blocked h all then select all t else h
              end
  end.
(** src/list.c:796-800 *)
Definition advance (next : nat) (s : seq) : seq :=
  match elems s with
  | h :: r => if next =? h then Seq r (dotted s) else s
  | [] => s
  end.
(** src/list.c:766-802; [None] is #f; running out of fuel is UB *)
Fixpoint merge_loop (fuel : nat) (ss : list seq) (result : list nat) : res (option (list nat)) :=
  match fuel with
  | O => UB
  | S f =>
    if forallb nullp ss then Ok (Some (rev result))
    else let next := select ss ss in
         if next =? FALSE then Ok None
         else merge_loop f (map (advance next) ss) (next :: result)
  end.
(** src/list.c:754-803  Scm_MonotonicMerge *)
Definition monotonic_merge (ss : list seq) : res (option (list nat)) :=
  merge_loop (S (list_sum (map (fun s => length (elems s)) ss))) ss [].

(** src/class.c:981-1013  Scm_ComputeCPL.  [cpl] gives the precedence lists of the
    existing classes; all direct superclasses are classes. *)
Definition remq (x : nat) (l : list nat) : list nat := filter (fun y => negb (x =? y)) l.
Definition compute_cpl (OBJECT TOP : nat) (object_cpl : list nat) (cpl : nat -> list nat) (klass : nat) (supers : list nat) : res (list nat) :=
  let ds := remq TOP (remq OBJECT supers) ++ [OBJECT] in
  let cpls := map cpl (filter (fun c => negb ((c =? OBJECT) || (c =? TOP))) supers) in
  do r <- monotonic_merge (map (fun l => Seq l false) (cpls ++ [object_cpl] ++ [ds]));
  match r with None => Err | Some l => Ok (klass :: l) end.
