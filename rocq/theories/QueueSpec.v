(** A queue is a sequence; items enter at the rear (enqueue) or at the front (push) and leave at the
    front. *)
From Coq Require Import List Bool ZArith.
From Verif Require Import QueueModel.
Import ListNotations.
Section S.
Context {V : Type}.
(** Of the items offered, in order, those not equal (by cmp, called on the new item first) to one
    already there or taken before. *)
Fixpoint news (cmp : V -> V -> bool) (there offered : list V) : list V :=
  match offered with
  | [] => []
  | x :: r => if existsb (cmp x) there then news cmp there r else x :: news cmp (x :: there) r
  end.
(** What an operation does to the sequence, and its answer. *)
Definition spec1 (o : op V) (vs : list V) : list V * out V :=
  match o with
  | Enqueue v more => (vs ++ v :: more, Unit)
  | EnqueueUnique cmp v more => (vs ++ news cmp vs (v :: more), Unit)
  | Push v more => (rev (v :: more) ++ vs, Unit)
  | PushUnique cmp v more => (rev (news cmp vs (v :: more)) ++ vs, Unit)
  | Dequeue => match vs with [] => ([], EmptyError) | v :: r => (r, Val v) end
  | DequeueAll => ([], Vals vs)
  | Front => (vs, match vs with [] => EmptyError | v :: _ => Val v end)
  | Rear => (vs, match rev vs with [] => EmptyError | v :: _ => Val v end)
  | Length => (vs, Num (Z.of_nat (List.length vs)))
  | EmptyP => (vs, Bool (match vs with [] => true | _ => false end))
  | ToList => (vs, Vals vs)
  | RemoveIf pred => (filter (fun v => negb (pred v)) vs, Bool (existsb pred vs))
  | Find pred => (vs, OptVal (find pred vs))
  | SetList l => (l, Unit)
  end.
Fixpoint spec_run (os : list (op V)) (vs : list V) : list V * list (out V) :=
  match os with
  | [] => (vs, [])
  | o :: r => let '(vs, a) := spec1 o vs in let '(vs, l) := spec_run r vs in (vs, a :: l)
  end.
(** the items an operation brings *)
Definition items (o : op V) : list V :=
  match o with
  | Enqueue v more | EnqueueUnique _ v more | Push v more | PushUnique _ v more => v :: more
  | SetList l => l
  | _ => []
  end.
End S.
