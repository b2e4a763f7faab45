(** What a mutex is, without threads, locks or sleeping: SRFI-18's states, changed by one operation at
    a time; and what it means that a history is one of such an atomic mutex. *)
From Coq Require Import List Bool Arith.
From Verif Require Import MutexModel.
Import ListNotations.

(** not locked; or locked with or without an owner *)
Inductive mx := Free | Locked (o : option tid).
(** an atomic mutex: the set of ended threads matters, because a mutex whose owner has ended counts as
    unlocked (abandoned).  [accepts dead m o r m'] : in state m operation o may answer r and leave m' *)
Inductive accepts (dead : tid -> bool) : mx -> op -> res -> mx -> Prop :=
| A_lock tm ow : accepts dead Free (Lock tm ow) RTrue (Locked ow)
| A_abandoned tm ow d : dead d = true -> accepts dead (Locked (Some d)) (Lock tm ow) (RAbandoned d) (Locked ow)
(* giving up is allowed only to a call that has a timeout; it changes nothing *)
| A_timeout m ow : accepts dead m (Lock true ow) RFalse m
| A_unlock m cv tm : accepts dead m (Unlock cv tm) RTrue Free
| A_st_free : accepts dead Free State RNotAbandoned Free
| A_st_not_owned : accepts dead (Locked None) State RNotOwned (Locked None)
| A_st_owner o : dead o = false -> accepts dead (Locked (Some o)) State (ROwner o) (Locked (Some o))
| A_st_abandoned o : dead o = true -> accepts dead (Locked (Some o)) State RStAbandoned (Locked (Some o)).

(** the effects of a history, in order, are those of one atomic mutex *)
Inductive atomic : list ev -> (tid -> bool) -> mx -> Prop :=
| At_nil : atomic [] (fun _ => false) Free
| At_eff h d m t o r m' : atomic h d m -> accepts d m o r m' -> atomic (h ++ [Eff t o r]) d m'
| At_die h d m t : atomic h d m -> atomic (h ++ [Die t]) (fun k => Nat.eqb k t || d k) m
| At_inv h d m t o : atomic h d m -> atomic (h ++ [Inv t o]) d m
| At_ret h d m t r : atomic h d m -> atomic (h ++ [Ret t r]) d m.

(** each thread's own history: call, effect, return, one after the other, with matching arguments;
    mutex-lock! and mutex-state return what the effect said; mutex-unlock! returns #t, or #f if it was
    given a condition variable and a timeout *)
Inductive phase := Out | Called (o : op) | Done (o : op) (r : res) | Ended.
Definition ret_ok (o : op) (eff ret : res) : Prop :=
  match o with
  | Lock _ _ | State => ret = eff
  | Unlock cv tm => ret = RTrue \/ (ret = RFalse /\ cv <> None /\ tm = true)
  end.
Inductive orderly (t : tid) : list ev -> phase -> Prop :=
| O_nil : orderly t [] Out
| O_inv h o : orderly t h Out -> orderly t (h ++ [Inv t o]) (Called o)
| O_eff h o r : orderly t h (Called o) -> orderly t (h ++ [Eff t o r]) (Done o r)
| O_ret h o r r' : orderly t h (Done o r) -> ret_ok o r r' -> orderly t (h ++ [Ret t r']) Out
| O_die h p : orderly t h p -> orderly t (h ++ [Die t]) Ended
| O_other h p e : orderly t h p ->
    (match e with Inv u _ | Eff u _ _ | Ret u _ | Die u => u <> t end) -> orderly t (h ++ [e]) p.
(** a call that got the lock *)
Definition got (r : res) : Prop := r = RTrue \/ exists d, r = RAbandoned d.
(** no thread is on its way: each is outside, ended, or asleep *)
Definition asleep_or_out (s : st) : Prop :=
  forall t, th s t = Idle \/ th s t = Dead \/ lsleeps s t \/ exists c, csleeps s c t.
