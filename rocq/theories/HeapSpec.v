(** Heaps as multisets (lists up to permutation). *)
From Coq Require Import List Bool Arith Permutation.
From Verif Require Import Outcome HeapModel.
Import ListNotations.

Record weak_order {A} (lt : A -> A -> bool) : Prop := {
  wo_irrefl : forall x, lt x x = false;
  wo_trans : forall x y z, lt x y = true -> lt y z = true -> lt x z = true;
  wo_total : forall x y z, lt x y = true -> lt x z = true \/ lt z y = true
}.
Definition is_min {A} (lt : A -> A -> bool) (x : A) (l : list A) : Prop := In x l /\ forall y, In y l -> lt y x = false.
Definition is_max {A} (lt : A -> A -> bool) (x : A) (l : list A) : Prop := In x l /\ forall y, In y l -> lt x y = false.

(** the elements in the first [n] cells *)
Definition elements {A} (s : store A) (n : nat) : list A :=
  flat_map (fun i => match cells s i with Some v => [v] | None => [] end) (seq 1 n).
(** parent and grandparent conditions at every node *)
Definition node_ok {A} (lt : A -> A -> bool) (s : store A) (p j : nat) : Prop :=
  match cells s p, cells s j with
  | Some a, Some b => if min_node p then lt b a = false else lt a b = false
  | _, _ => False
  end.
(** a valid heap: its cells are set, within the limit, and ordered *)
Record valid {A} (lt : A -> A -> bool) (h : heap A) : Prop := {
  v_next : 1 <= next_leaf h;
  v_set : forall i, 1 <= i < next_leaf h -> cells (storage h) i <> None;
  v_limit : match limit (storage h) with Some n => next_leaf h <= n + 1 | None => True end;
  v_parent : forall j, 2 <= j < next_leaf h -> node_ok lt (storage h) (j / 2) j;
  v_grandparent : forall j, 4 <= j < next_leaf h -> node_ok lt (storage h) (j / 4) j
}.
(** [h] is a valid heap with the elements [l], in some order *)
Definition holds {A} (lt : A -> A -> bool) (h : heap A) (l : list A) : Prop :=
  valid lt h /\ Permutation (elements (storage h) (next_leaf h - 1)) l.
(** the capacity slot agrees with the storage *)
Definition sized {A} (h : heap A) : Prop := cap h = cap_of (storage h).
Definition has_room {A} (h : heap A) (l : list A) : Prop :=
  match limit (storage h) with Some n => length l < n | None => True end.

Definition is_nil {A} (l : list A) : bool := match l with [] => true | _ => false end.

(** histories of operations and the sorted multiset they are compared with *)
Inductive op (A : Type) :=
| Push (x : A) | PopMin | PopMax | FindMin | FindMax | SwapMin (x : A) | SwapMax (x : A)
| Remove (pred : A -> bool) | Clear | Count.
Arguments Push {A} x. Arguments PopMin {A}. Arguments PopMax {A}. Arguments FindMin {A}. Arguments FindMax {A}.
Arguments SwapMin {A} x. Arguments SwapMax {A} x. Arguments Remove {A} pred. Arguments Clear {A}. Arguments Count {A}.
Inductive answer (A : Type) := Failed | Done | Value (r : A) | Number (n : nat).
Arguments Failed {A}. Arguments Done {A}. Arguments Value {A} r. Arguments Number {A} n.

(** [spec_step lt max l o a l']: with the elements [l] and room for [max] elements (no bound if
    None), operation [o] may answer [a] and leave the elements [l'] *)
Definition spec_step {A} (lt : A -> A -> bool) (max : option nat) (l : list A) (o : op A) (a : answer A) (l' : list A) : Prop :=
  match o with
  | Push x =>
      if match max with Some n => n <=? length l | None => false end then a = Failed /\ l' = l
      else a = Done /\ Permutation l' (x :: l)
  | PopMin => if is_nil l then a = Failed /\ l' = l else exists r, a = Value r /\ is_min lt r l /\ Permutation l (r :: l')
  | PopMax => if is_nil l then a = Failed /\ l' = l else exists r, a = Value r /\ is_max lt r l /\ Permutation l (r :: l')
  | FindMin => l' = l /\ if is_nil l then a = Failed else exists r, a = Value r /\ is_min lt r l
  | FindMax => l' = l /\ if is_nil l then a = Failed else exists r, a = Value r /\ is_max lt r l
  | SwapMin x => if is_nil l then a = Failed /\ l' = l
      else exists r m, a = Value r /\ is_min lt r l /\ Permutation l (r :: m) /\ Permutation l' (x :: m)
  | SwapMax x => if is_nil l then a = Failed /\ l' = l
      else exists r m, a = Value r /\ is_max lt r l /\ Permutation l (r :: m) /\ Permutation l' (x :: m)
  | Remove pred => a = Done /\ Permutation l' (filter (fun x => negb (pred x)) l)
  | Clear => a = Done /\ l' = []
  | Count => a = Number (length l) /\ l' = l
  end.
Fixpoint spec_run {A} (lt : A -> A -> bool) (max : option nat) (l : list A) (os : list (op A)) (answers : list (answer A)) (l' : list A) : Prop :=
  match os, answers with
  | [], [] => l' = l
  | o :: os, a :: answers => exists m, spec_step lt max l o a m /\ spec_run lt max m os answers l'
  | _, _ => False
  end.
(** running a history on a heap; an operation that raises an error leaves the heap alone *)
Definition perform {A} (lt : A -> A -> bool) (filler : A) (h : heap A) (o : op A) : res (answer A * heap A) :=
  let value r := match r with Ok (v, h') => Ok (Value v, h') | Err => Ok (Failed, h) | Panic => Panic | UB => UB end in
  let look r := match r with Ok v => Ok (Value v, h) | Err => Ok (Failed, h) | Panic => Panic | UB => UB end in
  let done r := match r with Ok h' => Ok (Done, h') | Err => Ok (Failed, h) | Panic => Panic | UB => UB end in
  match o with
  | Push x => done (push lt h x)
  | PopMin => value (pop_min lt filler h)
  | PopMax => value (pop_max lt filler h)
  | FindMin => look (find_min h None)
  | FindMax => look (find_max lt h None)
  | SwapMin x => value (swap_min lt h x)
  | SwapMax x => value (swap_max lt h x)
  | Remove pred => done (remove lt filler h pred)
  | Clear => Ok (Done, heap_clear h)
  | Count => Ok (Number (num_entries h), h)
  end.
Fixpoint perform_all {A} (lt : A -> A -> bool) (filler : A) (h : heap A) (os : list (op A)) : res (list (answer A) * heap A) :=
  match os with
  | [] => Ok ([], h)
  | o :: os => match perform lt filler h o with
               | Ok (a, h1) => match perform_all lt filler h1 os with
                               | Ok (answers, h2) => Ok (a :: answers, h2) | Err => Err | Panic => Panic | UB => UB end
               | Err => Err | Panic => Panic | UB => UB end
  end.
