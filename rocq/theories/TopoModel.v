(** lib/srfi/234.scm: topological sorting (util.toposort delegates to it).
    A graph is a list of entries (node . successors).  [eqv] is the eq argument, called as
    (eq x key) by assoc.  The mutable variables table, queue and result are threaded. *)
From Coq Require Import List Bool ZArith.
From Verif Require Import Outcome.
Import ListNotations.
Local Open Scope Z_scope.

Section Topo.
Context {V : Type} (eqv : V -> V -> bool).

Definition graph := list (V * list V).
Definition table := list (V * Z).

(** (assoc x alist eq) *)
Fixpoint assoc {B} (x : V) (l : list (V * B)) : option (V * B) :=
  match l with [] => None | (k, b) :: r => if eqv x k then Some (k, b) else assoc x r end.
(** (set-cdr! p v) on the pair p = (assoc x table eq) *)
Fixpoint set_count (x : V) (c : Z) (t : table) : table :=
  match t with [] => [] | (k, b) :: r => if eqv x k then (k, c) :: r else (k, b) :: set_count x c r end.

(** lib/srfi/234.scm:42-44  the initial table *)
Definition init_table (g : graph) : table := map (fun n => (fst n, 0)) g.
(** lib/srfi/234.scm:53-59 *)
Definition count_edge (t : table) (to : V) : table :=
  match assoc to t with
  | Some (_, c) => set_count to (1 + c) t
  | None => (to, 1) :: t
  end.
(** lib/srfi/234.scm:49-61  set-up *)
Definition set_up (g : graph) : table := fold_left (fun t node => fold_left count_edge (snd node) t) g (init_table g).

(** lib/srfi/234.scm:70-77  one successor: (table, queue, result) *)
Definition visit_to (s : table * list V * list V) (to : V) : table * list V * list V :=
  let '(t, queue, result) := s in
  match assoc to t with
  | Some (_, c) =>
      let cnt := c - 1 in
      let t' := set_count to cnt t in
      if cnt =? 0 then (t', to :: queue, to :: result) else (t', queue, result)
  | None => s
  end.
(** lib/srfi/234.scm:64-79  traverse *)
Fixpoint traverse (fuel : nat) (g : graph) (s : table * list V * list V) : res (table * list V) :=
  match fuel with
  | O => UB
  | S n =>
    let '(t, queue, result) := s in
    match queue with
    | [] => Ok (t, result)
    | x :: queue' =>
      match assoc x g with
      | Some (_, tos) => traverse n g (fold_left visit_to tos (t, queue', result))
      | None => traverse n g (t, queue', result)
      end
    end
  end.
(** lib/srfi/234.scm:81-89 *)
Definition initial_queue (t : table) : list V := flat_map (fun p => if snd p =? 0 then [fst p] else []) t.

Inductive answer := Order (l : list V) | Circular (rest : list V).
(** lib/srfi/234.scm:41-107  topological-sort-impl/details without the nodes argument.
    The number of traverse steps is bounded by the table length, see TopoProofs. *)
Definition topological_sort_details (g : graph) : res answer :=
  let t := set_up g in
  let q := initial_queue t in
  do r <- traverse (S (length t)) g (t, q, q);
  let rest := filter (fun e => negb (snd e =? 0)) (fst r) in
  match rest with
  | [] => Ok (Order (rev (snd r)))
  | _ => Ok (Circular (map fst rest))
  end.
(** lib/srfi/234.scm:36-39  topological-sort-impl: the first value *)
Definition topological_sort (g : graph) : res (option (list V)) :=
  do a <- topological_sort_details g;
  Ok (match a with Order l => Some l | Circular _ => None end).
(** lib/util/toposort.scm:14-16 *)
Definition util_topological_sort (g : graph) : res (list V) :=
  do a <- topological_sort g; match a with Some l => Ok l | None => Err end.
(** lib/srfi/234.scm:94-103  the nodes argument: indices are replaced from the end of [result];
    [ref] is (vector-ref nodes _) *)
Fixpoint replace_loop {W} (ref : V -> res W) (res' : list W) (result : list V) : res (list W) :=
  match result with [] => Ok res' | x :: r => do w <- ref x; replace_loop ref (w :: res') r end.
Definition topological_sort_nodes {W} (ref : V -> res W) (g : graph) : res (option (list W)) :=
  do a <- topological_sort_details g;
  match a with
  | Order l => do ws <- replace_loop ref [] (rev l); Ok (Some ws)
  | Circular _ => Ok None
  end.
End Topo.
Arguments graph : clear implicits.
Arguments table : clear implicits.
