(** C52  Mutexes exclude, under every schedule. *)
From Coq Require Import List Bool Arith Lia.
From Verif Require Import MutexModel MutexSpec MutexProofs MutexProofs2.
Import ListNotations.

(** Whatever the schedule, the effects of mutex-lock!, mutex-unlock! and mutex-state are those of one
    atomic mutex ([MutexSpec.accepts]). *)
Theorem mutex_atomic s h : exec false s h -> exists d m, atomic h d m.
Proof. intro E. destruct (exec_atomic _ _ E) as (d & m & A & _). eauto. Qed.

(** Each effect lies between its call and its return, belongs to that call, and the return value is
    the one the effect gave; also with interrupted waits. *)
Theorem mutex_calls_orderly b s h : exec b s h -> forall t, exists p, orderly t h p.
Proof. intros E t. destruct (exec_orderly _ _ _ E t) as (p & O & _). eauto. Qed.

(** Mutual exclusion: between two calls that got the lock, somebody unlocked it, or the owner the
    first call gave to the mutex has ended and the second call raises the abandoned-mutex exception
    that names it. *)
Theorem mutex_exclusion s h1 t1 tm1 ow1 r1 h2 t2 tm2 ow2 r2 h3 :
  exec false s (h1 ++ Eff t1 (Lock tm1 ow1) r1 :: h2 ++ Eff t2 (Lock tm2 ow2) r2 :: h3) ->
  got r1 -> got r2 -> (forall u tm ow r, got r -> ~ In (Eff u (Lock tm ow) r) h2) ->
  (exists u cv tm r, In (Eff u (Unlock cv tm) r) h2) \/
  (exists d, ow1 = Some d /\ r2 = RAbandoned d /\ In (Die d) (h1 ++ h2)).
Proof.
  intros E G1 G2 NL. destruct (exec_atomic _ _ E) as (d & m & A & _).
  set (k := h1 ++ Eff t1 (Lock tm1 ow1) r1 :: h2).
  assert (HE : h1 ++ Eff t1 (Lock tm1 ow1) r1 :: h2 ++ Eff t2 (Lock tm2 ow2) r2 :: h3
               = (k ++ [Eff t2 (Lock tm2 ow2) r2]) ++ h3)
    by (unfold k; repeat (rewrite <- app_assoc; cbn); reflexivity).
  rewrite HE in A. apply atomic_prefix in A. destruct A as (d' & m' & A).
  apply atomic_snoc in A. destruct A as (m0 & A & AC).
  assert (DU : (exists u cv tm r, In (Eff u (Unlock cv tm) r) h2) \/ (forall u cv tm r, ~ In (Eff u (Unlock cv tm) r) h2)).
  { clear. induction h2 as [|e h IH]; [right; intros u cv tm r []|].
    destruct IH as [(u & cv & tm & r & Q)|Q]; [left; exists u, cv, tm, r; now right|].
    destruct e as [t o|t o r|t r|t]; try (right; intros u cv tm r' [P|P]; [discriminate|eapply Q; eauto]).
    destruct o as [tm ow|cv tm|]; try (right; intros u cv' tm' r' [P|P]; [discriminate|eapply Q; eauto]).
    left. exists t, cv, tm, r. now left. }
  destruct DU as [DU|DU]; [now left|]. right.
  assert (M : m0 = Locked ow1) by (eapply (atomic_after h1 t1 tm1 ow1 r1 h2); [exact G1|exact A|exact DU|exact NL]). subst m0.
  inversion AC as [|? ? dd DD| | | | | |]; subst.
  - exists dd. split; [auto|]. split; [auto|].
    pose proof (atomic_dead _ _ _ _ A DD) as Q. unfold k in Q. apply in_app_or in Q. apply in_or_app.
    destruct Q as [Q|[Q|Q]]; [auto|discriminate|auto].
  - destruct G2 as [G|(x & G)]; discriminate.
Qed.

(** mutex-lock! gives up only if it was given a timeout. *)
Theorem mutex_lock_false_timed s h t tm ow : exec false s h -> In (Eff t (Lock tm ow) RFalse) h -> tm = true.
Proof.
  intros E Q. apply in_split in Q. destruct Q as (h1 & h2 & ->).
  destruct (exec_atomic _ _ E) as (d & m & A & _).
  replace (h1 ++ Eff t (Lock tm ow) RFalse :: h2) with ((h1 ++ [Eff t (Lock tm ow) RFalse]) ++ h2) in A
    by (now rewrite <- app_assoc).
  apply atomic_prefix in A. destruct A as (d' & m' & A). apply atomic_snoc in A. destruct A as (m0 & A & AC).
  now inversion AC.
Qed.

(** No lost wake-up: when every thread is outside, ended or asleep, a thread sleeps in mutex-lock! only
    if the mutex is locked. *)
Theorem mutex_no_lost_wakeup b s h t :
  exec b s h -> asleep_or_out s -> lsleeps s t -> state_get s <> RNotAbandoned.
Proof.
  intros E A D Q. pose proof (exec_wake _ _ _ E) as W. destruct W as [L|(u & B)]; [eauto| |].
  - unfold state_get in Q. rewrite L in Q. destruct (owner s); [destruct (is_dead (th s t0))|]; discriminate.
  - eapply not_busy_asleep; eauto.
Qed.

(** mutex-unlock! with a condition variable unlocks and waits in one go: when another thread takes the
    lock, every thread whose mutex-unlock! has had its effect but has not returned is already asleep on
    its condition variable, or has been woken from it.  (So a signal sent by a thread that has locked
    the mutex since cannot be missed.) *)
Theorem mutex_unlock_wait_atomic b s h t c tm u o r s' :
  exec b s h -> orderly t h (Done (Unlock (Some c) tm) RTrue) -> u <> t ->
  step s (Tau [Eff u o r]) s' ->
  csleeps s' c t \/ (exists w, th s' t = UWoken w).
Proof.
  intros E O NE ST. destruct (exec_orderly _ _ _ E t) as (p & O' & P).
  assert (P' : p = Done (Unlock (Some c) tm) RTrue).
  { clear - O O'. revert p O'. induction O; intros q O'.
    - inversion O'; subst; auto; destruct h; discriminate.
    - remember (h ++ [Inv t o]) as hh eqn:EQ. destruct O'; [destruct h; discriminate|..];
        apply app_inj_tail in EQ; destruct EQ; subst; try discriminate; try congruence.
    - remember (h ++ [Eff t o r]) as hh eqn:EQ. destruct O'; [destruct h; discriminate|..];
        apply app_inj_tail in EQ; destruct EQ; subst; try discriminate; try congruence.
    - remember (h ++ [Ret t r']) as hh eqn:EQ. destruct O'; [destruct h; discriminate|..];
        apply app_inj_tail in EQ; destruct EQ; subst; try discriminate; try congruence.
    - remember (h ++ [Die t]) as hh eqn:EQ. destruct O'; [destruct h; discriminate|..];
        apply app_inj_tail in EQ; destruct EQ; subst; try discriminate; try congruence.
    - remember (h ++ [e]) as hh eqn:EQ. destruct O'; [destruct h; discriminate|..];
        apply app_inj_tail in EQ; destruct EQ; subst; try congruence. now apply IHO. }
  subst p. pose proof (exec_held _ _ _ E) as I.
  assert (C : crit (th s u) = true /\ th s' t = th s t).
  { inversion ST; subst; cbn [th set_th set_held set_lock];
      (split; [match goal with Q : th s u = _ |- _ => rewrite Q; reflexivity end|]);
      destruct (Nat.eqb_spec t u); congruence. }
  destruct C as (C & TS).
  assert (NC : crit (th s t) = false).
  { destruct (crit (th s t)) eqn:Q; auto. exfalso. apply NE. eapply crit_uniq; eauto. }
  unfold csleeps. rewrite TS. inversion P; subst; try (match goal with Q : _ = th s t |- _ => rewrite <- Q in NC; discriminate end); eauto.
Qed.

(** A free mutex can be locked: if everybody else is outside, ended or asleep, a thread that calls
    mutex-lock! gets the lock and returns #t by its own steps alone. *)
Theorem mutex_lock_solo b s h t tm ow :
  exec b s h -> asleep_or_out s -> th s t = Idle -> state_get s = RNotAbandoned ->
  exists s', exec b s' (h ++ [Inv t (Lock tm ow); Eff t (Lock tm ow) RTrue; Ret t RTrue]).
Proof.
  intros E A D L.
  assert (LK : locked s = false).
  { unfold state_get in L. destruct (locked s); auto. destruct (owner s); [destruct (is_dead (th s t0))|]; discriminate. }
  assert (HN : held s = None).
  { destruct (held s) as [x|] eqn:HX; auto. apply (exec_held _ _ _ E) in HX.
    destruct (A x) as [Q|[Q|[(? & ? & Q)|(? & ? & Q)]]]; rewrite Q in HX; discriminate. }
  assert (E1 := E_tau b _ _ _ _ E (S_call s t (Lock tm ow) D)).
  assert (E2 : exists s2, exec b s2 ((h ++ [Inv t (Lock tm ow)]) ++ []) /\ th s2 t = LLoop tm ow /\ locked s2 = false).
  { eexists. split; [eapply E_tau; [exact E1|]; apply (S_lenter _ t tm ow); [apply set_th_same|exact HN]|].
    split; [cbn; now rewrite Nat.eqb_refl|exact LK]. }
  destruct E2 as (s2 & E2 & T2 & L2). rewrite app_nil_r in E2.
  assert (E3 := E_tau b _ _ _ _ E2 (S_lfree s2 t tm ow T2 L2)). rewrite app_nil_r in E3.
  assert (E4 := E_tau b _ _ _ _ E3 (S_lset _ t tm ow None (set_th_same _ _ _))).
  eexists. match goal with |- exec _ _ (h ++ [?a; ?x; ?c]) =>
    replace (h ++ [a; x; c]) with (((h ++ [a]) ++ [x]) ++ [c]) by (now rewrite <- !app_assoc) end.
  eapply E_tau; [exact E4|]. apply (S_lleave _ t None true). cbn. now rewrite Nat.eqb_refl.
Qed.

Local Ltac nx E r n := eapply E_tau in E; [|eapply r with (t := n); reflexivity].
Local Ltac nc E n x := eapply E_tau in E; [|eapply S_call with (t := n) (o := x); reflexivity].
(** * What the code does not give *)
(** With an interrupted timed wait (src/mutex.c:186 leaves the loop with r = #t), two threads get the
    lock and nobody unlocked it. *)
Theorem mutex_exclusion_intr_refuted : exists s,
  exec true s [Inv 1 (Lock false (Some 1)); Eff 1 (Lock false (Some 1)) RTrue; Ret 1 RTrue;
               Inv 2 (Lock true (Some 2)); Eff 2 (Lock true (Some 2)) RTrue].
Proof.
  pose proof (E_init true) as E0.
  nc E0 1 (Lock false (Some 1)).
  nx E0 S_lenter 1.
  nx E0 S_lfree 1.
  nx E0 S_lset 1.
  nx E0 S_lleave 1.
  nc E0 2 (Lock true (Some 2)).
  nx E0 S_lenter 2.
  nx E0 S_lwait 2.
  eapply E_intr in E0; [|reflexivity|eapply S_intr with (t := 2); left; exists (Some 2); reflexivity].
  nx E0 S_lback 2.
  nx E0 S_lset 2.
  eexists. exact E0.
Qed.

(** A mutex whose owner ends becomes abandoned, that is, unlocked; a thread already waiting for it
    without a timeout is not woken: everybody is outside, ended or asleep. *)
Theorem mutex_abandoned_wakeup_refuted : exists s h,
  exec false s h /\ asleep_or_out s /\ th s 2 = LSleep false (Some 2) /\ state_get s = RStAbandoned.
Proof.
  pose proof (E_init false) as E0.
  nc E0 1 (Lock false (Some 1)).
  nx E0 S_lenter 1.
  nx E0 S_lfree 1.
  nx E0 S_lset 1.
  nx E0 S_lleave 1.
  nc E0 2 (Lock false (Some 2)).
  nx E0 S_lenter 2.
  nx E0 S_lwait 2.
  eapply E_tau in E0; [|eapply S_die with (t := 1); left; reflexivity].
  eexists. eexists. split; [exact E0|]. split; [|split; reflexivity].
  intro t. cbn. destruct t as [|[|[|t]]]; cbn; auto. right; right; left. cbn. exists false, (Some 2). reflexivity.
Qed.

(** * The hypotheses can be met *)
(** lock by 1, a waiter 2, unlock by 1, lock by 2: h of mutex_exclusion with an unlock in between; and
    a waiter asleep while the mutex is locked (mutex_no_lost_wakeup) *)
Example mutex_handover : exists s,
  exec false s ([Inv 1 (Lock false (Some 1))] ++ Eff 1 (Lock false (Some 1)) RTrue ::
     [Ret 1 RTrue; Inv 2 (Lock false (Some 2)); Inv 1 (Unlock None false); Eff 1 (Unlock None false) RTrue; Ret 1 RTrue] ++
     Eff 2 (Lock false (Some 2)) RTrue :: []) /\ state_get s = ROwner 2.
Proof.
  pose proof (E_init false) as E0.
  nc E0 1 (Lock false (Some 1)).
  nx E0 S_lenter 1.
  nx E0 S_lfree 1.
  nx E0 S_lset 1.
  nx E0 S_lleave 1.
  nc E0 2 (Lock false (Some 2)).
  nx E0 S_lenter 2.
  nx E0 S_lwait 2.
  nc E0 1 (Unlock None false).
  nx E0 S_uenter 1.
  nx E0 S_uclear 1.
  eapply E_tau in E0; [|eapply S_usignal with (t := 1) (u := 2); [reflexivity|exists false, (Some 2); reflexivity]].
  nx E0 S_unowait 1.
  nx E0 S_uleave 1.
  nx E0 S_lback 2.
  nx E0 S_lfree 2.
  nx E0 S_lset 2.
  eexists. split; [exact E0|reflexivity].
Qed.
(** everybody asleep or outside, one thread waiting (mutex_no_lost_wakeup); a free mutex (mutex_lock_solo) *)
Example mutex_sleeper : exists s h, exec false s h /\ asleep_or_out s /\ lsleeps s 2 /\ state_get s = ROwner 1.
Proof.
  pose proof (E_init false) as E0.
  nc E0 1 (Lock false (Some 1)).
  nx E0 S_lenter 1.
  nx E0 S_lfree 1.
  nx E0 S_lset 1.
  nx E0 S_lleave 1.
  nc E0 2 (Lock false (Some 2)).
  nx E0 S_lenter 2.
  nx E0 S_lwait 2.
  eexists. eexists. split; [exact E0|]. split; [|split; [exists false, (Some 2); reflexivity|reflexivity]].
  intro t. cbn. destruct t as [|[|[|t]]]; cbn; auto. right; right; left. exists false, (Some 2). reflexivity.
Qed.
Example mutex_free_start : asleep_or_out init /\ state_get init = RNotAbandoned.
Proof. split; [intro t; now left|reflexivity]. Qed.
(** a thread in mutex-unlock! with a condition variable, and another about to take the lock
    (mutex_unlock_wait_atomic) *)
Example mutex_unlock_waiting : exists s h,
  exec false s h /\ orderly 1 h (Done (Unlock (Some 7) false) RTrue) /\
  exists s', step s (Tau [Eff 2 (Lock false (Some 2)) RTrue]) s'.
Proof.
  pose proof (E_init false) as E0.
  nc E0 1 (Unlock (Some 7) false).
  nx E0 S_uenter 1.
  nx E0 S_uclear 1.
  eapply E_tau in E0; [|eapply S_usignal0 with (t := 1); [reflexivity|intros u (tm & ow & Q); destruct u as [|[|u]]; discriminate]].
  nx E0 S_uwait 1.
  nc E0 2 (Lock false (Some 2)).
  nx E0 S_lenter 2.
  nx E0 S_lfree 2.
  eexists. eexists. split; [exact E0|]. split.
  - cbn. apply (O_other 1 [_; _] _ (Inv 2 _)); [|discriminate].
    apply (O_eff 1 [_]). apply (O_inv 1 []). constructor.
  - eexists. apply (S_lset _ 2 false (Some 2) None). reflexivity.
Qed.

Print Assumptions mutex_atomic.
Print Assumptions mutex_calls_orderly.
Print Assumptions mutex_exclusion.
Print Assumptions mutex_lock_false_timed.
Print Assumptions mutex_no_lost_wakeup.
Print Assumptions mutex_unlock_wait_atomic.
Print Assumptions mutex_lock_solo.
Print Assumptions mutex_exclusion_intr_refuted.
Print Assumptions mutex_abandoned_wakeup_refuted.
