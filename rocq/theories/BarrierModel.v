(** src/libthr.scm: barriers as a transition system.  One step is one critical section of the
    barrier's mutex (MutexProps: exclusive, and mutex-unlock! with a condition variable unlocks and waits
    in one go), or one of the steps barrier-await does without the mutex; the schedule is arbitrary.
    A running call is in one of the lists of [st].  Condition variables as POSIX specifies them.
    Simplified: thread ends, assume-type checks, names and printing; the action is opaque, it returns or
    raises. *)
From Coq Require Import List Bool ZArith.
Import ListNotations.
Local Open Scope Z_scope.

Definition tid := nat.
(** a call in barrier-await's loop: thread, has a timeout, gen and place (None the first time) *)
Record call := Call { who : tid; timed : bool; loc : option (Z * Z) }.
Record st := {
  count : Z; gen : Z; broken : bool;
  want : list call;                 (* about to take the mutex at 574 *)
  asleep : list call;               (* in the wait of 605 *)
  acting : list (tid * Z);          (* running the action, 594-596, with its gen *)
  acted : list (tid * Z * bool);    (* about to take the mutex again at 597; did the action raise? *)
  late : list tid                   (* timed out, about to take the mutex again at 608 *)
}.
Inductive ev :=
| EArrive (t : tid) (g p : Z)       (* first time in the mutex, not broken: generation and place *)
| EAction (t : tid) (g : Z) (ok : bool)  (* the action has run *)
| ERet (t : tid) (g p : Z)          (* barrier-await returns its place *)
| ERaise (t : tid) (g : Z)          (* barrier-await raises what the action raised *)
| EBroken (t : tid)                 (* barrier-await returns timeout-val: broken *)
| ETimeout (t : tid)                (* the wait timed out; barrier-await will return timeout-val *)
| EReset.                           (* barrier-reset! *)

(** src/libthr.scm:544-547  make-barrier *)
Definition init : st :=
  {| count := 0; gen := 0; broken := false; want := []; asleep := []; acting := []; acted := []; late := [] |}.
(** condition-variable-broadcast! *)
Definition wake_all (s : st) : st :=
  {| count := count s; gen := gen s; broken := broken s; want := asleep s ++ want s; asleep := [];
     acting := acting s; acted := acted s; late := late s |}.
Definition set_count (c : Z) (s : st) : st :=
  {| count := c; gen := gen s; broken := broken s; want := want s; asleep := asleep s;
     acting := acting s; acted := acted s; late := late s |}.
Definition set_gen (g : Z) (s : st) : st :=
  {| count := count s; gen := g; broken := broken s; want := want s; asleep := asleep s;
     acting := acting s; acted := acted s; late := late s |}.
Definition set_broken (b : bool) (s : st) : st :=
  {| count := count s; gen := gen s; broken := b; want := want s; asleep := asleep s;
     acting := acting s; acted := acted s; late := late s |}.
Definition set_want (w : list call) (s : st) : st :=
  {| count := count s; gen := gen s; broken := broken s; want := w; asleep := asleep s;
     acting := acting s; acted := acted s; late := late s |}.
Definition set_asleep (w : list call) (s : st) : st :=
  {| count := count s; gen := gen s; broken := broken s; want := want s; asleep := w;
     acting := acting s; acted := acted s; late := late s |}.
Definition set_acting (w : list (tid * Z)) (s : st) : st :=
  {| count := count s; gen := gen s; broken := broken s; want := want s; asleep := asleep s;
     acting := w; acted := acted s; late := late s |}.
Definition set_acted (w : list (tid * Z * bool)) (s : st) : st :=
  {| count := count s; gen := gen s; broken := broken s; want := want s; asleep := asleep s;
     acting := acting s; acted := w; late := late s |}.
Definition set_late (w : list tid) (s : st) : st :=
  {| count := count s; gen := gen s; broken := broken s; want := want s; asleep := asleep s;
     acting := acting s; acted := acted s; late := w |}.
(** src/libthr.scm:598-600  the generation is over *)
Definition release (s : st) : st := wake_all (set_gen (gen s + 1) (set_count 0 s)).

Section B.
Variable threshold : Z.
Variable action : bool.            (* was an action given? *)

(** src/libthr.scm:574-579  lock; the first time, count up and take generation and place *)
Definition enter (c : call) (s : st) : st * Z * Z :=
  match loc c with
  | None => (set_count (count s + 1) s, gen s, threshold - (count s + 1))
  | Some (g, p) => (s, g, p)
  end.
Definition arrival (c : call) (g p : Z) : list ev :=
  match loc c with None => [EArrive (who c) g p] | Some _ => [] end.

Inductive step : st -> list ev -> st -> Prop :=
| S_call s t tm : step s [] (set_want (Call t tm None :: want s) s)
(** src/libthr.scm:581-583  broken *)
| S_broken s a c b s1 g p : want s = a ++ c :: b -> enter c s = (s1, g, p) -> broken s1 = true ->
    step s [EBroken (who c)] (set_want (a ++ b) s1)
(** src/libthr.scm:584-586  the generation is over *)
| S_over s a c b s1 g p : want s = a ++ c :: b -> enter c s = (s1, g, p) -> broken s1 = false -> g < gen s1 ->
    step s (arrival c g p ++ [ERet (who c) g p]) (set_want (a ++ b) s1)
(** src/libthr.scm:587-596  the last one: leave the mutex and run the action *)
| S_last_action s a c b s1 g p : want s = a ++ c :: b -> enter c s = (s1, g, p) -> broken s1 = false ->
    ~ g < gen s1 -> p = 0 -> action = true ->
    step s (arrival c g p) (set_acting ((who c, g) :: acting s1) (set_want (a ++ b) s1))
(** src/libthr.scm:587, 598-604  the last one, no action *)
| S_last s a c b s1 g p : want s = a ++ c :: b -> enter c s = (s1, g, p) -> broken s1 = false ->
    ~ g < gen s1 -> p = 0 -> action = false ->
    step s (arrival c g p ++ [ERet (who c) g p]) (release (set_want (a ++ b) s1))
(** src/libthr.scm:605  unlock and wait *)
| S_wait s a c b s1 g p : want s = a ++ c :: b -> enter c s = (s1, g, p) -> broken s1 = false ->
    ~ g < gen s1 -> p <> 0 ->
    step s (arrival c g p) (set_asleep (Call (who c) (timed c) (Some (g, p)) :: asleep s1) (set_want (a ++ b) s1))
(** src/libthr.scm:594-596  the action returns, or raises: broken is set without the mutex *)
| S_action s a t g b ok : acting s = a ++ (t, g) :: b ->
    step s [EAction t g ok]
         (set_broken (broken s || negb ok) (set_acted ((t, g, negb ok) :: acted s) (set_acting (a ++ b) s)))
(** src/libthr.scm:597-604 *)
| S_acted s a t g raised b : acted s = a ++ (t, g, raised) :: b ->
    step s [if raised : bool then ERaise t g else ERet t g 0] (release (set_acted (a ++ b) s))
| S_spurious s a c b : asleep s = a ++ c :: b ->
    step s [] (set_want (c :: want s) (set_asleep (a ++ b) s))
(** src/libthr.scm:605, 607  the wait times out *)
| S_timeout s a c b : asleep s = a ++ c :: b -> timed c = true ->
    step s [ETimeout (who c)] (set_late (who c :: late s) (set_asleep (a ++ b) s))
(** src/libthr.scm:608-612 *)
| S_late s a t b : late s = a ++ t :: b ->
    step s [] (wake_all (set_broken true (set_late (a ++ b) s)))
(** src/libthr.scm:558-564  barrier-reset! *)
| S_reset s : step s [EReset] (wake_all (set_count 0 (set_gen (gen s + 1) (set_broken false s)))).

Inductive exec : st -> list ev -> Prop :=
| E_init : exec init []
| E_step s h e s' : exec s h -> step s e s' -> exec s' (h ++ e).
End B.
