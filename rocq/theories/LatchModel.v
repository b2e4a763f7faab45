(** src/libthr.scm: latches as a transition system.  One step is one critical section of
    the object's mutex (MutexProps: exclusive, and mutex-unlock! with a condition variable unlocks and
    waits in one go); the schedule is arbitrary.  A call that is running is in one of two lists: want
    (about to take the mutex) or asleep (waiting on the condition variable).  Condition variables as
    POSIX specifies them: a signal wakes one sleeper if there is one, sleepers may wake for no reason, a
    sleeper with a timeout may time out.
    Simplified: thread ends, assume-type checks, names and printing. *)
From Coq Require Import List Bool ZArith.
Import ListNotations.
Local Open Scope Z_scope.

Definition tid := nat.
(** a waiting call: the thread, and whether it has a timeout *)
Definition call := (tid * bool)%type.

(** * Latches *)
Record st := { count : Z; want : list call; asleep : list call }.
Inductive ev :=
| Call (t : tid)              (* latch-await is called *)
| Passed (t : tid)            (* it returns #t *)
| TimedOut (t : tid)          (* it returns timeout-val *)
| Dec (n r : Z)               (* latch-dec! latch n returns r *)
| Clear (r : Z).              (* latch-clear! returns r *)
(** src/libthr.scm:479-484  make-latch; the count is positive *)
Definition init (n : Z) : st := {| count := n; want := []; asleep := [] |}.
Definition mk c w s : st := {| count := c; want := w; asleep := s |}.

Inductive step : st -> list ev -> st -> Prop :=
| Call_ s t tm : ~ In t (map fst (want s ++ asleep s)) ->
    step s [Call t] (mk (count s) ((t, tm) :: want s) (asleep s))
(** src/libthr.scm:518-520 *)
| Pass s a t tm b : want s = a ++ (t, tm) :: b -> count s <= 0 ->
    step s [Passed t] (mk (count s) (a ++ b) (asleep s))
(** src/libthr.scm:521 *)
| Sleep s a t tm b : want s = a ++ (t, tm) :: b -> ~ count s <= 0 ->
    step s [] (mk (count s) (a ++ b) ((t, tm) :: asleep s))
| Spurious s a c b : asleep s = a ++ c :: b ->
    step s [] (mk (count s) (c :: want s) (a ++ b))
| Timeout s a t b : asleep s = a ++ (t, true) :: b ->
    step s [TimedOut t] (mk (count s) (want s) (a ++ b))
(** src/libthr.scm:494-503  latch-dec!: n may be any exact integer *)
| Dec_open s n : ~ 0 < count s ->
    step s [Dec n (count s)] s
| Dec_last s n : 0 < count s -> count s - n <= 0 ->
    step s [Dec n (count s - n)] (mk (count s - n) (asleep s ++ want s) [])
| Dec_more s n : 0 < count s -> ~ count s - n <= 0 ->
    step s [Dec n (count s - n)] (mk (count s - n) (want s) (asleep s))
(** src/libthr.scm:506-512  latch-clear! *)
| Clear_zero s : count s = 0 -> step s [Clear 0] s
| Clear_ s : count s <> 0 ->
    step s [Clear (count s)] (mk 0 (asleep s ++ want s) []).

Inductive exec (n : Z) : st -> list ev -> Prop :=
| E_init : exec n (init n) []
| E_step s h e s' : exec n s h -> step s e s' -> exec n s' (h ++ e).
