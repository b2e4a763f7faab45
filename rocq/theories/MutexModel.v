(** src/mutex.c: Scheme-level mutexes as a transition system.  One step is one access to the mutex
    record (or to the POSIX objects inside it) by one thread; the schedule is arbitrary.  One mutex,
    any number of threads and of condition variables.

    The POSIX objects (src/gauche/pthread.h:118-182) are modelled as POSIX specifies them: the
    internal mutex has at most one holder; waiting on a condition releases the internal mutex and
    goes to sleep in one step; a signal wakes one sleeper if there is one, a broadcast all of them; a
    sleeper may also wake for no reason; a timed wait may end with ETIMEDOUT; a wait gives the internal
    mutex back before it returns.  EINTR is a step of its own ([SIntr]): POSIX rules it out, the code
    has a branch for it (src/mutex.c:186).
    Simplified: reading several fields while the internal mutex is held is one step (nobody else writes
    them then); names and specific slots; a thread is killed (thread-terminate!, or it just ends) when
    it is outside these functions or asleep in a wait, which is where POSIX cancels a thread. *)
From Coq Require Import List Bool Arith.
Import ListNotations.

Definition tid := nat.
Definition cvid := nat.
(** src/gauche/pthread.h:169-170  what a timed wait says *)
Inductive wres := WOk | WTimeout | WIntr.
(** the operations: mutex-lock! with an owner (src/libthr.scm:242-247), mutex-unlock! (249-253), mutex-state *)
Inductive op :=
| Lock (timed : bool) (ow : option tid)
| Unlock (cv : option cvid) (timed : bool)
| State.
(** what they return: #t, #f, an abandoned-mutex exception, or the state *)
Inductive res :=
| RTrue | RFalse
| RAbandoned (old : tid)
| RNotOwned | ROwner (o : tid) | RStAbandoned | RNotAbandoned.

(** where a thread is *)
Inductive pc :=
| Idle
| Dead
| LWant (timed : bool) (ow : option tid)                 (* 176 *)
| LLoop (timed : bool) (ow : option tid)                 (* 177, the internal mutex is held *)
| LSleep (timed : bool) (ow : option tid)                (* in the wait of 184 or 188 *)
| LWoken (timed : bool) (ow : option tid) (w : wres)     (* woken, wants the internal mutex back *)
| LSet (timed : bool) (ow : option tid) (ab : option tid)  (* 191-194 with r = #t *)
| LFail (ow : option tid)                                (* 191 with r = #f *)
| LLeave (ab : option tid) (ok : bool)                   (* 195 *)
| UWant (cv : option cvid) (timed : bool)                (* 214 *)
| UClear (cv : option cvid) (timed : bool)               (* 215-216 *)
| USignal (cv : option cvid) (timed : bool)              (* 217 *)
| UWait (cv : option cvid) (timed : bool)                (* 218 *)
| USleep (cv : cvid) (timed : bool)                      (* in the wait of 220 or 224 *)
| UWoken (w : wres)
| ULeave (ok : bool)                                     (* 227 *)
| SWant                                                  (* 112 *)
| SRead                                                  (* 113-122 *)
| SLeave (r : res).                                      (* 123 *)

(** the history: a call, the moment it takes effect, its return, and the end of a thread *)
Inductive ev :=
| Inv (t : tid) (o : op)
| Eff (t : tid) (o : op) (r : res)
| Ret (t : tid) (r : res)
| Die (t : tid).

Record st := { held : option tid; locked : bool; owner : option tid; th : tid -> pc }.
(** src/mutex.c:61-74  mutex_allocate *)
Definition init : st := {| held := None; locked := false; owner := None; th := fun _ => Idle |}.

Definition set_th (t : tid) (p : pc) (s : st) : st :=
  {| held := held s; locked := locked s; owner := owner s; th := fun k => if Nat.eqb k t then p else th s k |}.
Definition set_held (h : option tid) (s : st) : st :=
  {| held := h; locked := locked s; owner := owner s; th := th s |}.
Definition set_lock (l : bool) (o : option tid) (s : st) : st :=
  {| held := held s; locked := l; owner := o; th := th s |}.
Definition is_dead (p : pc) : bool := match p with Dead => true | _ => false end.
(** src/mutex.c:178  mutex->owner && mutex->owner->state == SCM_VM_TERMINATED *)
Definition owner_dead (s : st) : bool :=
  match owner s with Some o => is_dead (th s o) | None => false end.
(** src/mutex.c:109-125  mutex_state_get *)
Definition state_get (s : st) : res :=
  if locked s then
    match owner s with
    | Some o => if is_dead (th s o) then RStAbandoned else ROwner o
    | None => RNotOwned
    end
  else RNotAbandoned.
(** asleep on the mutex's own condition variable *)
Definition lsleeps (s : st) (t : tid) : Prop := exists tm ow, th s t = LSleep tm ow.
(** asleep on condition variable c *)
Definition csleeps (s : st) (c : cvid) (t : tid) : Prop := exists tm, th s t = USleep c tm.
(** what wakes a sleeper: nothing else changes *)
Definition wake (w : wres) (p : pc) : pc :=
  match p with
  | LSleep tm ow => LWoken tm ow w
  | USleep _ _ => UWoken w
  | _ => p
  end.
(** the result of mutex-lock! once it has the lock (195-203) *)
Definition lock_res (ab : option tid) (ok : bool) : res :=
  if ok then match ab with Some a => RAbandoned a | None => RTrue end else RFalse.

Inductive lab := Tau (evs : list ev) | Intr.

Inductive step : st -> lab -> st -> Prop :=
(** calls, and threads that end *)
| S_call s t o : th s t = Idle ->
    step s (Tau [Inv t o])
         (set_th t (match o with Lock tm ow => LWant tm ow | Unlock cv tm => UWant cv tm | State => SWant end) s)
| S_die s t : th s t = Idle \/ lsleeps s t \/ (exists c, csleeps s c t) ->
    step s (Tau [Die t]) (set_th t Dead s)
(** src/mutex.c:176  SCM_INTERNAL_MUTEX_SAFE_LOCK_BEGIN *)
| S_lenter s t tm ow : th s t = LWant tm ow -> held s = None ->
    step s (Tau []) (set_held (Some t) (set_th t (LLoop tm ow) s))
(** src/mutex.c:177, 191  not locked: leave the loop with r = #t *)
| S_lfree s t tm ow : th s t = LLoop tm ow -> locked s = false ->
    step s (Tau []) (set_th t (LSet tm ow None) s)
(** src/mutex.c:178-182  the owner has ended *)
| S_labandoned s t tm ow o : th s t = LLoop tm ow -> locked s = true -> owner s = Some o -> owner_dead s = true ->
    step s (Tau []) (set_lock false (owner s) (set_th t (LSet tm ow (Some o)) s))
(** src/mutex.c:183-189  wait *)
| S_lwait s t tm ow : th s t = LLoop tm ow -> locked s = true -> owner_dead s = false ->
    step s (Tau []) (set_held None (set_th t (LSleep tm ow) s))
(** waking up for no reason, and the time-out (only when a timeout was given) *)
| S_lspurious s t tm ow : th s t = LSleep tm ow ->
    step s (Tau []) (set_th t (wake WOk (th s t)) s)
| S_ltimeout s t ow : th s t = LSleep true ow ->
    step s (Tau []) (set_th t (wake WTimeout (th s t)) s)
(** the wait takes the internal mutex again and returns *)
| S_lback s t tm ow w : th s t = LWoken tm ow w -> held s = None ->
    step s (Tau [])
         (set_held (Some t)
            (set_th t (match w with
                       | WOk => LLoop tm ow            (* round the loop again *)
                       | WTimeout => LFail ow          (* 185 r = #f *)
                       | WIntr => LSet tm ow None      (* 186 break, r is still #t *)
                       end) s))
(** src/mutex.c:191-194 *)
| S_lset s t tm ow ab : th s t = LSet tm ow ab ->
    step s (Tau [Eff t (Lock tm ow) (lock_res ab true)])
         (set_lock true ow (set_th t (LLeave ab true) s))
| S_lfail s t ow : th s t = LFail ow ->
    step s (Tau [Eff t (Lock true ow) RFalse]) (set_th t (LLeave None false) s)
(** src/mutex.c:195-204 *)
| S_lleave s t ab ok : th s t = LLeave ab ok ->
    step s (Tau [Ret t (lock_res ab ok)]) (set_held None (set_th t Idle s))
(** src/mutex.c:214 *)
| S_uenter s t cv tm : th s t = UWant cv tm -> held s = None ->
    step s (Tau []) (set_held (Some t) (set_th t (UClear cv tm) s))
(** src/mutex.c:215-216 *)
| S_uclear s t cv tm : th s t = UClear cv tm ->
    step s (Tau [Eff t (Unlock cv tm) RTrue]) (set_lock false None (set_th t (USignal cv tm) s))
(** src/mutex.c:217  SCM_INTERNAL_COND_SIGNAL: one sleeper, if there is one *)
| S_usignal s t u cv tm : th s t = USignal cv tm -> lsleeps s u ->
    step s (Tau []) (set_th u (wake WOk (th s u)) (set_th t (UWait cv tm) s))
| S_usignal0 s t cv tm : th s t = USignal cv tm -> (forall u, ~ lsleeps s u) ->
    step s (Tau []) (set_th t (UWait cv tm) s)
(** src/mutex.c:218-226 *)
| S_uwait s t c tm : th s t = UWait (Some c) tm ->
    step s (Tau []) (set_held None (set_th t (USleep c tm) s))
| S_unowait s t tm : th s t = UWait None tm ->
    step s (Tau []) (set_th t (ULeave true) s)
| S_uspurious s t c tm : th s t = USleep c tm ->
    step s (Tau []) (set_th t (wake WOk (th s t)) s)
| S_utimeout s t c : th s t = USleep c true ->
    step s (Tau []) (set_th t (wake WTimeout (th s t)) s)
| S_uback s t w : th s t = UWoken w -> held s = None ->
    step s (Tau [])
         (set_held (Some t) (set_th t (ULeave (match w with WTimeout => false | _ => true end)) s))
| S_uleave s t ok : th s t = ULeave ok ->
    step s (Tau [Ret t (if ok then RTrue else RFalse)]) (set_held None (set_th t Idle s))
(** src/mutex.c:112-123  mutex_state_get *)
| S_senter s t : th s t = SWant -> held s = None ->
    step s (Tau []) (set_held (Some t) (set_th t SRead s))
| S_sread s t : th s t = SRead ->
    step s (Tau [Eff t State (state_get s)]) (set_th t (SLeave (state_get s)) s)
| S_sleave s t r : th s t = SLeave r ->
    step s (Tau [Ret t r]) (set_held None (set_th t Idle s))
(** src/mutex.c:344-354  condition-variable-signal!, condition-variable-broadcast! by any running
    thread: no lock is taken *)
| S_csignal s u c : csleeps s c u ->
    step s (Tau []) (set_th u (wake WOk (th s u)) s)
| S_cbroadcast s c (s' : st) :
    held s' = held s -> locked s' = locked s -> owner s' = owner s ->
    (forall u, (csleeps s c u -> th s' u = wake WOk (th s u)) /\ (~ csleeps s c u -> th s' u = th s u)) ->
    step s (Tau []) s'
(** the interrupted wait that POSIX rules out *)
| S_intr s t : (exists ow, th s t = LSleep true ow) \/ (exists c, th s t = USleep c true) ->
    step s Intr (set_th t (wake WIntr (th s t)) s).

(** executions and their histories; [exec b] with b = false has no Intr step *)
Inductive exec (intr : bool) : st -> list ev -> Prop :=
| E_init : exec intr init []
| E_tau s h evs s' : exec intr s h -> step s (Tau evs) s' -> exec intr s' (h ++ evs)
| E_intr s h s' : intr = true -> exec intr s h -> step s Intr s' -> exec intr s' h.
