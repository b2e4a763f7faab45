(** ext/data/queue.scm: the singly linked queue shared by <queue> and <mtqueue>, on a heap of pairs.
    Locations are numbers, fresh pairs get a new number (garbage collection only reclaims what is
    unreachable and is not modelled). *)
From Coq Require Import List Bool ZArith.
From Verif Require Import Outcome.
Import ListNotations.
Local Open Scope Z_scope.

Section Q.
Context {V : Type} (nilv : V) (is_marker : V -> bool).
Inductive ptr := Nil | Pt (l : nat).
Record heap := { cells : nat -> option (V * ptr); next : nat }.
Definition empty_heap : heap := {| cells := fun _ => None; next := 0 |}.
(** Scm_Cons *)
Definition cons_cell (v : V) (p : ptr) (h : heap) : heap * ptr :=
  ({| cells := fun k => if Nat.eqb k (next h) then Some (v, p) else cells h k; next := S (next h) |}, Pt (next h)).
(** a fresh list in front of p: list copying, rest arguments *)
Fixpoint alloc (vs : list V) (p : ptr) (h : heap) : heap * ptr :=
  match vs with
  | [] => (h, p)
  | v :: r => let '(h, q) := alloc r p h in cons_cell v q h
  end.
Definition write (h : heap) (l : nat) (c : V * ptr) : heap :=
  {| cells := fun k => if Nat.eqb k l then Some c else cells h k; next := next h |}.
(** SCM_CAR, SCM_CDR, SCM_SET_CDR: undefined on anything but a pair *)
Definition car (h : heap) (p : ptr) : res V :=
  match p with Pt l => match cells h l with Some (v, _) => Ok v | None => UB end | Nil => UB end.
Definition cdr (h : heap) (p : ptr) : res ptr :=
  match p with Pt l => match cells h l with Some (_, q) => Ok q | None => UB end | Nil => UB end.
Definition set_cdr (h : heap) (p : ptr) (q : ptr) : res heap :=
  match p with
  | Pt l => match cells h l with Some (v, _) => Ok (write h l (v, q)) | None => UB end
  | Nil => UB
  end.
(** Scm_LastPair, src/list.c: the last pair; fuel bounds the walk, a longer one does not end *)
Fixpoint last_pair_loop (fuel : nat) (h : heap) (p : ptr) : res ptr :=
  match fuel with
  | O => UB
  | S f => do q <- cdr h p; match q with Nil => Ok p | Pt _ => last_pair_loop f h q end
  end.
Definition last_pair (h : heap) (p : ptr) : res ptr :=
  match p with Nil => Ok Nil | Pt _ => last_pair_loop (next h) h p end.
(** the elements of a list: list-copy, length, and the walks of find, any, every and member *)
Fixpoint elements_loop (fuel : nat) (h : heap) (p : ptr) : res (list V) :=
  match p with
  | Nil => Ok []
  | Pt _ => match fuel with
            | O => UB
            | S f => do v <- car h p; do q <- cdr h p; do r <- elements_loop f h q; Ok (v :: r)
            end
  end.
Definition elements (h : heap) (p : ptr) : res (list V) := elements_loop (next h) h p.

(** ext/data/queue.scm:76-80  Queue *)
Record queue := { len : Z; head : ptr; tail : ptr }.
(** ext/data/queue.scm:96-99  makeq *)
Definition makeq : queue := {| len := 0; head := Nil; tail := Nil |}.
Definition empty_p (q : queue) : bool := match head q with Nil => true | Pt _ => false end.
(** ext/data/queue.scm:91-94  %qlength: computed when len is negative, and remembered *)
Definition qlength (h : heap) (q : queue) : res (queue * Z) :=
  if len q <? 0 then do vs <- elements h (head q);
    let n := Z.of_nat (List.length vs) in Ok ({| len := n; head := head q; tail := tail q |}, n)
  else Ok (q, len q).
(** ext/data/queue.scm:306-314  %queue-set-content! with last-pair #f *)
Definition set_content (h : heap) (q : queue) (lst : ptr) : res queue :=
  match lst with
  | Pt _ => do t <- last_pair h lst; Ok {| len := -1; head := lst; tail := t |}
  | Nil => Ok {| len := 0; head := Nil; tail := Nil |}
  end.
(** ext/data/queue.scm:442-447  enqueue_int *)
Definition enqueue_int (h : heap) (q : queue) (cnt : Z) (hd tl : ptr) : res (heap * queue) :=
  let n := if 0 <=? len q then len q + cnt else len q in
  if empty_p q then Ok (h, {| len := n; head := hd; tail := tl |})
  else do h <- set_cdr h (tail q) hd; Ok (h, {| len := n; head := head q; tail := tl |}).
(** ext/data/queue.scm:532-537  queue-push-int *)
Definition queue_push_int (h : heap) (q : queue) (cnt : Z) (hd tl : ptr) : res (heap * queue) :=
  do h <- set_cdr h tl (head q);
  do t <- last_pair h tl;
  Ok (h, {| len := if 0 <=? len q then len q + cnt else len q; head := hd; tail := t |}).
(** ext/data/queue.scm:592-604  dequeue-int: None if the queue is empty.  The loop skips close
    markers; each iteration removes a pair, and fuel is the number of pairs ever made. *)
Fixpoint dequeue_int_loop (fuel : nat) (h : heap) (q : queue) : res (heap * queue * option V) :=
  match fuel with
  | O => UB
  | S f =>
    match head q with
    | Nil => Ok (h, q, None)
    | Pt l =>
      do r <- car h (Pt l);
      do d <- cdr h (Pt l);
      let h := write h l (nilv, Nil) in
      let q := {| len := if 0 <=? len q then len q - 1 else len q; head := d; tail := tail q |} in
      if is_marker r then dequeue_int_loop f h q else Ok (h, q, Some r)
    end
  end.
Definition dequeue_int (h : heap) (q : queue) := dequeue_int_loop (S (next h)) h q.
(** ext/data/queue.scm:637-646  dequeue-all-int; Scm_DeleteX is given by the elements it leaves *)
Definition dequeue_all_int (h : heap) (q : queue) : res (queue * list V) :=
  let q' := {| len := 0; head := Nil; tail := Nil |} in
  match head q with
  | Nil => Ok (q', [])
  | Pt _ =>
    do l <- last_pair h (head q);
    do m <- car h l;
    do vs <- elements h (head q);
    Ok (q', if is_marker m then filter (fun v => negb (is_marker v)) vs else vs)
  end.

(** The operations of a plain <queue>. *)
Inductive op :=
| Enqueue (v : V) (more : list V)
| EnqueueUnique (cmp : V -> V -> bool) (v : V) (more : list V)
| Push (v : V) (more : list V)
| PushUnique (cmp : V -> V -> bool) (v : V) (more : list V)
| Dequeue | DequeueAll | Front | Rear | Length | EmptyP | ToList
| RemoveIf (pred : V -> bool) | Find (pred : V -> bool)
| SetList (vs : list V).                                       (* list->queue into this queue *)
Inductive out := Unit | Val (v : V) | OptVal (v : option V) | Vals (vs : list V) | Num (n : Z) | Bool (b : bool) | EmptyError.
(** (member x lis cmp): cmp is called on x and the element *)
Definition member (cmp : V -> V -> bool) (x : V) (l : list V) : bool := existsb (cmp x) l.
(** ext/data/queue.scm:507-511  pick of enqueue-unique! *)
Fixpoint pick_enqueue (cmp : V -> V -> bool) (lis xs ins : list V) : list V :=
  match ins with
  | [] => xs
  | i :: r => if member cmp i lis || member cmp i xs then pick_enqueue cmp lis xs r else pick_enqueue cmp lis (i :: xs) r
  end.
(** ext/data/queue.scm:574-577  pick of queue-push-unique!; what it conses on the list, newest first *)
Fixpoint pick_push (cmp : V -> V -> bool) (lis new ins : list V) : list V :=
  match ins with
  | [] => new
  | i :: r => if member cmp i (new ++ lis) then pick_push cmp lis new r else pick_push cmp lis (i :: new) r
  end.
(** one operation on a plain queue *)
Definition run1 (o : op) (h : heap) (q : queue) : res (heap * queue * out) :=
  match o with
  | Enqueue v more =>                                          (* ext/data/queue.scm:472-479 *)
    let '(h, hd) := alloc (v :: more) Nil h in
    do tl <- last_pair h hd;
    do hq <- enqueue_int h q (Z.of_nat (List.length (v :: more))) hd tl; Ok (fst hq, snd hq, Unit)
  | EnqueueUnique cmp v more =>                                (* ext/data/queue.scm:506-520 *)
    do lis <- elements h (head q);
    match pick_enqueue cmp lis [] (v :: more) with
    | [] => Ok (h, q, Unit)
    | xs => let '(h, hd) := alloc (rev xs) Nil h in
            do tl <- last_pair h hd;
            do hq <- enqueue_int h q (Z.of_nat (List.length xs)) hd tl; Ok (fst hq, snd hq, Unit)
    end
  | Push v more =>                     (* ext/data/queue.scm:539-548; Scm_ReverseX is a fresh reversed list *)
    let '(h, hd) := alloc (rev (v :: more)) Nil h in
    do tl <- last_pair h hd;
    do hq <- queue_push_int h q (Z.of_nat (List.length (v :: more))) hd tl; Ok (fst hq, snd hq, Unit)
  | PushUnique cmp v more =>                                   (* ext/data/queue.scm:573-587 *)
    do lis <- elements h (head q);
    match pick_push cmp lis [] (v :: more) with
    | [] => Ok (h, q, Unit)
    | new => let '(h, xs) := alloc new (head q) h in do q <- set_content h q xs; Ok (h, q, Unit)
    end
  | Dequeue =>                                                 (* ext/data/queue.scm:606-616 *)
    do x <- dequeue_int h q;
    let '(h, q, r) := x in Ok (h, q, match r with Some v => Val v | None => EmptyError end)
  | DequeueAll =>                                              (* ext/data/queue.scm:648-655 *)
    do x <- dequeue_all_int h q; Ok (h, fst x, Vals (snd x))
  | Front =>                                                   (* ext/data/queue.scm:376-402 *)
    if empty_p q then Ok (h, q, EmptyError) else do v <- car h (head q); Ok (h, q, Val v)
  | Rear =>
    if empty_p q then Ok (h, q, EmptyError) else do v <- car h (tail q); Ok (h, q, Val v)
  | Length => do x <- qlength h q; Ok (h, fst x, Num (snd x))  (* ext/data/queue.scm:353 *)
  | EmptyP => Ok (h, q, Bool (empty_p q))                      (* ext/data/queue.scm:332-337 *)
  | ToList => do vs <- elements h (head q); Ok (h, q, Vals vs) (* ext/data/queue.scm:403 *)
  | Find pred => do vs <- elements h (head q); Ok (h, q, OptVal (find pred vs))
  | RemoveIf pred =>                                           (* ext/data/queue.scm:669-680 *)
    do vs <- elements h (head q);
    if existsb pred vs then
      let '(h, p) := alloc (filter (fun v => negb (pred v)) vs) Nil h in
      do q <- set_content h q p; Ok (h, q, Bool true)
    else Ok (h, q, Bool false)
  | SetList vs => let '(h, p) := alloc vs Nil h in do q <- set_content h q p; Ok (h, q, Unit)
  end.
Fixpoint run (os : list op) (h : heap) (q : queue) : res (heap * queue * list out) :=
  match os with
  | [] => Ok (h, q, [])
  | o :: r => do x <- run1 o h q; let '(h, q, a) := x in
              do y <- run r h q; let '(h, q, l) := y in Ok (h, q, a :: l)
  end.
End Q.
Arguments heap : clear implicits.
Arguments op : clear implicits.
Arguments out : clear implicits.
Arguments empty_heap {V}.
