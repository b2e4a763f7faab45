(** src/libthr.scm: semaphores as a transition system.  One step is one critical section of
    the object's mutex (MutexProps: exclusive, and mutex-unlock! with a condition variable unlocks and
    waits in one go); the schedule is arbitrary.  A call that is running is in one of two lists: want
    (about to take the mutex) or asleep (waiting on the condition variable).  Condition variables as
    POSIX specifies them: a signal wakes one sleeper if there is one, sleepers may wake for no reason, a
    sleeper with a timeout may time out.
    Simplified: thread ends, assume-type checks, names and printing. *)
From Coq Require Import List Bool ZArith.
Import ListNotations.
Local Open Scope Z_scope.

Definition tid := nat.
(** a waiting call: the thread, and whether it has a timeout *)
Definition call := (tid * bool)%type.

(** * Semaphores *)
Record st := { count : Z; want : list call; asleep : list call }.
Inductive ev :=
| Call (t : tid)              (* semaphore-acquire! is called *)
| Acquired (t : tid)          (* it returns #t *)
| TimedOut (t : tid)          (* it returns timeout-val *)
| Released (n : Z).           (* semaphore-release! sem n *)
(** src/libthr.scm:429-432  make-semaphore *)
Definition init (n : Z) : st := {| count := n; want := []; asleep := [] |}.
Definition mk c w s : st := {| count := c; want := w; asleep := s |}.

Inductive step : st -> list ev -> st -> Prop :=
| Call_ s t tm : ~ In t (map fst (want s ++ asleep s)) ->
    step s [Call t] (mk (count s) ((t, tm) :: want s) (asleep s))
(** src/libthr.scm:445-449  a token is there *)
| Take s a t tm b : want s = a ++ (t, tm) :: b -> 0 < count s ->
    step s [Acquired t] (mk (count s - 1) (a ++ b) (asleep s))
(** src/libthr.scm:446, 450  none: unlock and wait *)
| Sleep s a t tm b : want s = a ++ (t, tm) :: b -> count s <= 0 ->
    step s [] (mk (count s) (a ++ b) ((t, tm) :: asleep s))
| Spurious s a c b : asleep s = a ++ c :: b ->
    step s [] (mk (count s) (c :: want s) (a ++ b))
(** src/libthr.scm:450-451 *)
| Timeout s a t b : asleep s = a ++ (t, true) :: b ->
    step s [TimedOut t] (mk (count s) (want s) (a ++ b))
(** src/libthr.scm:455-464  semaphore-release!: one token signals, several broadcast, unless there
    still is none *)
| Release1 s a c b : asleep s = a ++ c :: b -> 0 < count s + 1 ->
    step s [Released 1] (mk (count s + 1) (c :: want s) (a ++ b))
| Release1_nobody s : asleep s = [] -> 0 < count s + 1 ->
    step s [Released 1] (mk (count s + 1) (want s) [])
| Release_many s n : 1 < n -> 0 < count s + n ->
    step s [Released n] (mk (count s + n) (asleep s ++ want s) [])
| Release_none s n : 0 < n -> count s + n <= 0 ->
    step s [Released n] (mk (count s + n) (want s) (asleep s)).

Inductive exec (n : Z) : st -> list ev -> Prop :=
| E_init : exec n (init n) []
| E_step s h e s' : exec n s h -> step s e s' -> exec n s' (h ++ e).

