(** ext/data/queue.scm: the thread-safe queues (<mtqueue>) as a transition system.  A transition is a
    critical section of the queue's mutex, or a step of an operation that holds the 'big lock'.  The
    content is the sequence QueueModel's pairs represent (QueueProps.queue_history).  Threads are
    numbered; an idle thread may start any operation.  Not modelled: threads that end while holding
    the big lock (big-locked? at 177-180 looks at the owner's state), callbacks that use the queue
    they are called from (these block for ever), and queue-length (353), which reads and fills in the
    length without a lock. *)
From Coq Require Import List Bool ZArith.
From Verif Require Import Outcome QueueModel.
Import ListNotations.
Local Open Scope Z_scope.

Section M.
Context {V : Type}.
(** ext/data/queue.scm:416-433: None is the close marker *)
Local Notation item := (option V).
(** waiting operations; timed: a timeout argument was given *)
Inductive wop :=
| WPut (front : bool) (x : item) (close if_closed_error timed : bool)  (* queue-push/wait!, enqueue/wait! *)
| WTake (close timed : bool).                                          (* dequeue/wait! *)
(** operations that only hold the mutex *)
Inductive lop :=
| LPut (front : bool) (x : V) (more : list V)                          (* queue-push!, enqueue! *)
| LTake | LTakeAll | LPeek | LEmpty.
(** operations that hold the big lock *)
Inductive bop :=
| BUnique (front : bool) (cmp : V -> V -> bool) (x : V) (more : list V) (* queue-push-unique!, enqueue-unique! *)
| BRemove (pred : item -> bool)                                        (* remove-from-queue! *)
| BList | BFind (pred : item -> bool).                                 (* queue->list, find-in-queue *)
Inductive tstate :=
| Idle
| Pend (w : wop)                       (* past INIT of do-with-timeout, about to check *)
| Waiting (w : wop) (woken : bool)     (* in wait-cv *)
| NotifyW                              (* out of the mutex, about to notify the writers *)
| BLocked (b : bop)
| BRead (b : bop) (snap : list item)   (* has walked the list *)
| BNoted (b : bop) (snap : list item)  (* remove-from-queue!, has notified the writers *)
| BNotifyR                             (* has changed the content, about to notify the readers *)
| BDone.                               (* about to release the big lock *)
(** what happened, in order, and the answers *)
Inductive ev :=
| EPut (t : nat) (front : bool) (xs : list V)
| EPutWait (t : nat) (front : bool) (x : item) (close : bool)
| EClosed (t : nat) (raises : bool)
| EFull (t : nat) (n : Z)
| ETake (t : nat) (r : option V)
| ETakeWait (t : nat) (r : option V)
| EClose (t : nat)                     (* dequeue/wait! with close: the close takes effect *)
| ETakeAll (t : nat) (xs : list item)
| EPeek (t : nat) (r : option (item * item))
| EEmpty (t : nat) (b : bool)
| EUnique (t : nat) (front : bool) (cmp : V -> V -> bool) (xs : list V)
| ERemove (t : nat) (pred : item -> bool) (hit : bool)
| EList (t : nat) (xs : list item)
| EFind (t : nat) (pred : item -> bool) (r : option item)
| ETimeout (t : nat)
| ESetMax (t : nat) (n : Z).
Record st := { content : list item; maxlen : Z; closed : bool; locker : option nat; sem : Z; th : nat -> tstate }.
(** ext/data/queue.scm:137-148, 317-319: a new mtqueue; list->queue gives it a content *)
Definition start (init : list V) (max : Z) : st :=
  {| content := map Some init; maxlen := max; closed := false; locker := None; sem := 0; th := fun _ => Idle |}.

Definition set_th (t : nat) (x : tstate) (s : st) : st :=
  {| content := content s; maxlen := maxlen s; closed := closed s; locker := locker s; sem := sem s;
     th := fun k => if Nat.eqb k t then x else th s k |}.
Definition set_content (c : list item) (s : st) : st :=
  {| content := c; maxlen := maxlen s; closed := closed s; locker := locker s; sem := sem s; th := th s |}.
Definition set_closed (b : bool) (s : st) : st :=
  {| content := content s; maxlen := maxlen s; closed := b; locker := locker s; sem := sem s; th := th s |}.
Definition set_locker (l : option nat) (s : st) : st :=
  {| content := content s; maxlen := maxlen s; closed := closed s; locker := l; sem := sem s; th := th s |}.
Definition set_sem (n : Z) (s : st) : st :=
  {| content := content s; maxlen := maxlen s; closed := closed s; locker := locker s; sem := n; th := th s |}.
Definition set_max (n : Z) (s : st) : st :=
  {| content := content s; maxlen := n; closed := closed s; locker := locker s; sem := sem s; th := th s |}.
Definition is_take (w : wop) : bool := match w with WTake _ _ => true | WPut _ _ _ _ _ => false end.
Definition timed (w : wop) : bool := match w with WTake _ b => b | WPut _ _ _ _ b => b end.
(** ext/data/queue.scm:205-208  notify-readers, notify-writers: broadcast on readerWait or writerWait *)
Definition notify (readers : bool) (s : st) : st :=
  {| content := content s; maxlen := maxlen s; closed := closed s; locker := locker s; sem := sem s;
     th := fun k => match th s k with
                    | Waiting w b => if Bool.eqb (is_take w) readers then Waiting w true else Waiting w b
                    | x => x
                    end |}.
Definition free (s : st) : bool := match locker s with None => true | Some _ => false end.
Definition length (s : st) : Z := Z.of_nat (List.length (content s)).
(** ext/data/queue.scm:347-350  mtq-overflows *)
Definition overflows (s : st) (cnt : Z) : bool := (0 <=? maxlen s) && (maxlen s <? cnt + length s).
(** the wait-check of enqueue/wait!, queue-push/wait! (495-497, 563-565) and dequeue/wait! (628) *)
Definition wait_check (s : st) (w : wop) : bool :=
  match w with
  | WPut _ _ _ _ _ => if negb (maxlen s =? 0) then overflows s 1 else sem s =? 0
  | WTake _ _ => match content s with [] => true | _ => false end
  end.
Definition put (front : bool) (xs : list item) (s : st) : st :=
  set_content (if front then rev xs ++ content s else content s ++ xs) s.
(** dequeue-int (592-604), by QueueProofs.dequeue_rep *)
Fixpoint skip_markers (c : list item) : list item :=
  match c with None :: r => skip_markers r | _ => c end.
Definition take (s : st) : st * option V :=
  match skip_markers (content s) with
  | Some v :: r => (set_content r s, Some v)
  | _ => (set_content [] s, None)
  end.
(** dequeue-all-int (637-646) *)
Definition take_all (s : st) : st * list item :=
  (set_content [] s,
   match rev (content s) with
   | None :: _ => filter (fun x => match x with None => false | Some _ => true end) (content s)
   | _ => content s
   end).
(** ext/data/queue.scm:458-469 (q-write-op), 606-616 (dequeue!), 648-655 (dequeue-all!), 376-393
    (%queue-peek), 332-337 (queue-empty?) *)
Definition light (t : nat) (o : lop) (s : st) : st * list ev :=
  match o with
  | LPut front x more =>
    if closed s then (s, [EClosed t true])
    else let n := Z.of_nat (List.length (x :: more)) in
         if overflows s n then (s, [EFull t n])
         else (notify true (put front (map Some (x :: more)) s), [EPut t front (x :: more)])
  | LTake => match take s with
             | (s, None) => (s, [ETake t None])
             | (s, Some v) => (set_th t NotifyW s, [ETake t (Some v)])
             end
  | LTakeAll => let '(s, xs) := take_all s in (set_th t NotifyW s, [ETakeAll t xs])
  | LPeek => (s, [EPeek t (match content s with [] => None | x :: r => Some (x, last r x) end)])
  | LEmpty => (s, [EEmpty t (match content s with [] => true | _ => false end)])
  end.
(** INIT of do-with-timeout: 493-494, 561-562 and 624-626; close-code (488-490, 556-558) is swapped
    between enqueue/wait! and queue-push/wait! *)
Definition init (t : nat) (w : wop) (s : st) : st * list ev :=
  match w with
  | WPut front _ _ if_error _ => if closed s then (s, [EClosed t (if front then negb if_error else if_error)]) else (set_th t (Pend w) s, [])
  | WTake close _ =>
    let s := set_sem (sem s + 1) s in
    let s := if close then set_closed true s else s in
    (set_th t (Pend w) (notify false s), if close then [EClose t] else [])
  end.
(** DO-OK: 498-502, 566-569 and 630-634; the lock is free, so clearing it changes nothing *)
Definition do_ok (t : nat) (w : wop) (s : st) : st * list ev :=
  match w with
  | WPut front x close _ _ =>
    let s := put front [x] s in
    let s := if close then set_closed true s else s in
    (set_th t Idle (notify true s), [EPutWait t front x close])
  | WTake _ _ =>
    let '(s, r) := take (set_sem (sem s - 1) s) in
    (set_th t Idle (notify false s), [ETakeWait t r])
  end.
(** items and the marker: a comparison procedure finds no item equal to the marker *)
Definition icmp (cmp : V -> V -> bool) (a b : item) : bool :=
  match a, b with Some x, Some y => cmp x y | _, _ => false end.
(** under the big lock, after the list was walked *)
Definition big_write (t : nat) (b : bop) (snap : list item) (s : st) : st * list ev :=
  match b with
  | BUnique front cmp x more =>
    (* enqueue-unique! (506-520), queue-push-unique! (573-587) *)
    let new := if front then pick_push (icmp cmp) snap [] (map Some (x :: more))
               else rev (pick_enqueue (icmp cmp) snap [] (map Some (x :: more))) in
    match new with
    | [] => (set_th t BDone s, [EUnique t front cmp (x :: more)])
    | _ => let n := Z.of_nat (List.length new) in
           if overflows s n then (set_th t BDone s, [EFull t n])
           else (set_th t BNotifyR (set_content (if front then new ++ snap else content s ++ new) s),
                 [EUnique t front cmp (x :: more)])
    end
  | BRemove pred =>
    (* remove-from-queue! (669-680), nothing to remove *)
    (set_th t BDone s, [ERemove t pred false])
  | BList => (set_th t BDone s, [EList t snap])
  | BFind pred => (set_th t BDone s, [EFind t pred (find pred snap)])
  end.
Inductive action :=
| ALight (o : lop) | AStart (w : wop) | AGo
| AWake                                (* a notified waiter goes on *)
| ASpurious                            (* one that was not *)
| ATimeout | AIntr                     (* CW_TIMEDOUT, CW_INTR *)
| ANotify | ALock (b : bop) | ARead | AWrite
| ARaise                               (* a callback raises an error *)
| AUnlock | ASetMax (n : Z).
Definition is_remove (b : bop) (snap : list item) : option (item -> bool) :=
  match b with BRemove pred => if existsb pred snap then Some pred else None | _ => None end.
(** One transition of thread t; None: not possible now. *)
Definition step (t : nat) (a : action) (s : st) : option (st * list ev) :=
  match a, th s t with
  | ALight o, Idle => if free s then Some (light t o s) else None       (* with-mtq-light-lock, 192-193 *)
  | AStart w, Idle => Some (init t w s)
  | AGo, Pend w =>                                                       (* do-with-timeout, 260-267 *)
    if free s then if wait_check s w then Some (set_th t (Waiting w false) s, []) else Some (do_ok t w s)
    else None
  | AWake, Waiting w true => Some (set_th t (Pend w) s, [])
  | ASpurious, Waiting w false => Some (set_th t (Pend w) s, [])
  | ATimeout, Waiting w _ =>                                             (* 262-275: the lock is cleared *)
    if timed w then Some (set_th t Idle (set_locker None s), [ETimeout t]) else None
  | AIntr, Waiting w _ => if timed w then Some (set_th t (Pend w) (set_locker None s), []) else None
  | ANotify, NotifyW => Some (set_th t Idle (notify false s), [])
  | ALock b, Idle => if free s then Some (set_th t (BLocked b) (set_locker (Some t) s), []) else None (* 195-196 *)
  | ARead, BLocked b => Some (set_th t (BRead b (content s)) s, [])
  | ANotify, BRead b snap =>                                             (* 676: before the content is set *)
    match is_remove b snap with Some _ => Some (set_th t (BNoted b snap) (notify false s), []) | None => None end
  | AWrite, BRead b snap =>
    match is_remove b snap with Some _ => None | None => Some (big_write t b snap s) end
  | AWrite, BNoted b snap =>                                             (* 677 *)
    match is_remove b snap with
    | Some pred => Some (set_th t BDone (set_content (filter (fun x => negb (pred x)) snap) s), [ERemove t pred true])
    | None => None
    end
  | ANotify, BNotifyR => Some (set_th t BDone (notify true s), [])       (* 519, 585 *)
  | ARaise, BLocked _ => Some (set_th t BDone s, [])                     (* unwind-protect, 289 *)
  | AUnlock, BDone => Some (set_th t Idle (set_locker None s), [])       (* release-mtq-big-lock, 198-201 *)
  | ASetMax n, Idle => Some (set_max n s, [ESetMax t n])                 (* (setter of) max-length, 154-157: no lock *)
  | _, _ => None
  end.
(** An execution: which thread moves, and how. *)
Fixpoint exec (ls : list (nat * action)) (s : st) : option (st * list ev) :=
  match ls with
  | [] => Some (s, [])
  | (t, a) :: r => match step t a s with
                   | None => None
                   | Some (s1, e1) => match exec r s1 with None => None | Some (s2, e2) => Some (s2, e1 ++ e2) end
                   end
  end.
End M.
Arguments wop : clear implicits.
Arguments lop : clear implicits.
Arguments bop : clear implicits.
Arguments ev : clear implicits.
Arguments st : clear implicits.
Arguments action : clear implicits.
