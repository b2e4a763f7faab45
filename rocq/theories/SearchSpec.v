(** Occurrences of one sequence in another. *)
From Coq Require Import ZArith List.
From Verif Require Import StringModel StringSpec SearchModel.
Import ListNotations.
(** [occurs_at s p i]: p occurs in s at position i *)
Definition occurs_at {A} (s p : list A) (i : nat) : Prop := exists a b, s = a ++ p ++ b /\ length a = i.
Definition leftmost {A} (s p : list A) (i : nat) : Prop := occurs_at s p i /\ forall j, occurs_at s p j -> i <= j.
Definition rightmost {A} (s p : list A) (i : nat) : Prop := occurs_at s p i /\ forall j, occurs_at s p j -> j <= i.
Definition absent {A} (s p : list A) : Prop := forall i, ~ occurs_at s p i.
(** joining pieces with a separator character *)
Fixpoint join {A} (sep : A) (ps : list (list A)) : list A :=
  match ps with [] => [] | [p] => p | p :: t => p ++ sep :: join sep t end.
(** the values string-scan returns when cs2 is found at index i of cs1 *)
Definition scan_result (mode : scan_mode) (cs1 cs2 : list Z) (i : nat) (vals : list scan_val) : Prop :=
  let before := firstn i cs1 in let from := skipn i cs1 in
  let upto := firstn (i + length cs2) cs1 in let after := skipn (i + length cs2) cs1 in
  let strs l := exists bs, vals = map VStr bs /\ Forall2 holds bs l in
  match mode with
  | SIndex => vals = [VInt i]
  | SCursor => exists bs, encodes_all before bs /\ vals = [VCursor (length bs)]
  | SBefore => strs [before] | SAfter => strs [after]
  | SBefore2 => strs [before; from] | SAfter2 => strs [upto; after] | SBoth => strs [before; after]
  end.
Definition scan_failure (mode : scan_mode) (vals : list scan_val) : Prop :=
  vals = match mode with SIndex | SCursor | SBefore | SAfter => [VFalse] | _ => [VFalse; VFalse] end.

(** pieces: no separator in any piece, or in any but the last if the limit was reached *)
Definition split_spec (c : Z) (limit : option nat) (cs : list Z) (ps : list (list Z)) : Prop :=
  join c ps = cs /\ ps <> [] /\
  match limit with
  | None => Forall (fun p => ~ In c p) ps
  | Some n => length ps <= n + 1 /\ Forall (fun p => ~ In c p) (firstn n ps)
  end.
