(** MutexModel: each thread's calls, wake-ups, and waiting on a condition variable. *)
From Coq Require Import List Bool Arith Lia.
From Verif Require Import MutexModel MutexSpec MutexProofs.
Import ListNotations.

Inductive phr : pc -> phase -> Prop :=
| P_idle : phr Idle Out
| P_dead : phr Dead Ended
| P_lwant tm ow : phr (LWant tm ow) (Called (Lock tm ow))
| P_lloop tm ow : phr (LLoop tm ow) (Called (Lock tm ow))
| P_lsleep tm ow : phr (LSleep tm ow) (Called (Lock tm ow))
| P_lwoken tm ow w : (w = WTimeout -> tm = true) -> phr (LWoken tm ow w) (Called (Lock tm ow))
| P_lset tm ow ab : phr (LSet tm ow ab) (Called (Lock tm ow))
| P_lfail ow : phr (LFail ow) (Called (Lock true ow))
| P_lleave tm ow ab ok : phr (LLeave ab ok) (Done (Lock tm ow) (lock_res ab ok))
| P_uwant cv tm : phr (UWant cv tm) (Called (Unlock cv tm))
| P_uclear cv tm : phr (UClear cv tm) (Called (Unlock cv tm))
| P_usignal cv tm : phr (USignal cv tm) (Done (Unlock cv tm) RTrue)
| P_uwait cv tm : phr (UWait cv tm) (Done (Unlock cv tm) RTrue)
| P_usleep c tm : phr (USleep c tm) (Done (Unlock (Some c) tm) RTrue)
| P_uwoken c tm w : (w = WTimeout -> tm = true) -> phr (UWoken w) (Done (Unlock (Some c) tm) RTrue)
| P_uleave cv tm ok : (ok = false -> cv <> None /\ tm = true) -> phr (ULeave ok) (Done (Unlock cv tm) RTrue)
| P_swant : phr SWant (Called State)
| P_sread : phr SRead (Called State)
| P_sleave r : phr (SLeave r) (Done State r).

Lemma phr_ok p ph : phr p ph -> phr (wake WOk p) ph.
Proof. intro H; inversion H; subst; cbn; try (constructor; auto; discriminate). Qed.
Lemma phr_intr p ph : phr p ph -> phr (wake WIntr p) ph.
Proof. intro H; inversion H; subst; cbn; try (constructor; auto; discriminate). Qed.

Lemma exec_orderly b s h : exec b s h -> forall t, exists ph, orderly t h ph /\ phr (th s t) ph.
Proof.
  induction 1; intro k.
  - exists Out. split; constructor.
  - destruct (IHexec k) as (ph & O & P).
    inversion H0; subst; clear H0; rewrite ?app_nil_r; cbn [held locked owner set_held set_lock set_th th];
    try (match goal with |- context [Nat.eqb k ?t] => destruct (Nat.eqb_spec k t) end;
         [subst k; try (match goal with Q : th s ?t = _ |- context [th s ?t] => fail 1 | Q : th s ?t = _, P : phr (th s ?t) _ |- _ => rewrite Q in P; inversion P; subst end)
         |exists ph; split; [first [assumption|apply O_other; [assumption|congruence]]|assumption]]).
    + exists (Called o). split; [now constructor|]. destruct o; constructor.
    + exists Ended. split; [econstructor; eauto|constructor].
    + eexists; split; [eassumption|constructor].
    + eexists; split; [eassumption|constructor].
    + eexists; split; [eassumption|constructor].
    + eexists; split; [eassumption|constructor].
    + exists ph; split; [assumption|]. now apply phr_ok.
    + match goal with Q : th s t = _ |- _ => rewrite Q in *; inversion P; subst end. eexists; split; [eassumption|]. apply P_lwoken. auto.
    + match goal with Q : w = WTimeout -> _ |- _ => rename Q into QW end.
      destruct w; [eexists; split; [eassumption|constructor]| |eexists; split; [eassumption|constructor]].
      rewrite (QW eq_refl) in O. eexists; split; [eassumption|constructor].
    + eexists; split; [econstructor; eassumption|]. constructor.
    + eexists; split; [econstructor; eassumption|]. apply (P_lleave true ow None false).
    + exists Out. split; [|constructor]. eapply O_ret; eauto. reflexivity.
    + eexists; split; [eassumption|constructor].
    + eexists; split; [econstructor; eassumption|]. constructor.
    + match goal with Q : lsleeps s u |- _ => destruct Q as (tm' & ow' & Q) end.
      destruct (Nat.eqb_spec k u).
      * subst k. exists ph. split; [assumption|]. now apply phr_ok.
      * destruct (Nat.eqb_spec k t); [|eauto]. subst k.
        match goal with Q : th s t = _ |- _ => rewrite Q in P; inversion P; subst end.
        eexists; split; [eassumption|constructor].
    + eexists; split; [eassumption|constructor].
    + eexists; split; [eassumption|constructor].
    + eexists; split; [eassumption|constructor]. discriminate.
    + exists ph; split; [assumption|]. now apply phr_ok.
    + match goal with Q : th s t = _ |- _ => rewrite Q in *; inversion P; subst end. eexists; split; [eassumption|]. cbn [wake]. apply P_uwoken. auto.
    + eexists; split; [eassumption|]. constructor. destruct w; try discriminate. split; [discriminate|auto].
    + exists Out. split; [|constructor]. eapply O_ret; eauto. cbn.
      destruct ok; auto.
    + eexists; split; [eassumption|constructor].
    + eexists; split; [econstructor; eassumption|]. constructor.
    + exists Out. split; [|constructor]. eapply O_ret; eauto. reflexivity.
    + exists ph. split; [assumption|]. now apply phr_ok.
    + exists ph. split; [assumption|].
      match goal with Q : forall u : tid, _ |- _ => destruct (Q k) as [A B] end.
      destruct (csleeps_dec s c k) as [Q|Q]; [rewrite (A Q); now apply phr_ok|now rewrite (B Q)].
  - destruct (IHexec k) as (ph & O & P). exists ph. split; [assumption|].
    inversion H1; subst. cbn [th set_th]. destruct (Nat.eqb_spec k t); [subst k|auto]. now apply phr_intr.
Qed.

(** * No lost wake-up *)
(** on its way to set the lock bit, or to wake a sleeper *)
Definition busy (p : pc) : bool :=
  match p with
  | LWoken _ _ WOk | LWoken _ _ WIntr | LLoop _ _ | LSet _ _ _ | USignal _ _ => true
  | _ => false
  end.
Definition Iwake (s : st) : Prop :=
  (exists t, lsleeps s t) -> locked s = true \/ exists t, busy (th s t) = true.

Lemma not_busy_asleep s t : asleep_or_out s -> busy (th s t) = true -> False.
Proof.
  intros A B. destruct (A t) as [Q|[Q|[(tm & ow & Q)|(c & tm & Q)]]]; rewrite Q in B; discriminate.
Qed.

(** a thread that is busy before stays busy unless ... *)
Lemma busy_step s l s' t : step s l s' -> busy (th s t) = true ->
  busy (th s' t) = true \/ locked s' = true \/ (forall u, ~ lsleeps s u) \/ (exists u, busy (th s' u) = true).
Proof.
  intros H B. inversion H; subst; clear H; cbn [held locked owner set_held set_lock set_th th];
    try (match goal with |- context [Nat.eqb t ?t0] => destruct (Nat.eqb_spec t t0) end;
      [subst t; try (match goal with Q : th s ?t0 = _ |- _ => rewrite Q in B; try discriminate B end); try (now left); try (right; left; assumption)
      |now left]).
  - destruct H0 as [Q|[(tm & ow & Q)|(c & tm & Q)]]; rewrite Q in B; discriminate.
  - left. destruct w; try reflexivity. discriminate B.
  - destruct H1 as (tm' & ow' & Q). right; right; right. exists u. rewrite Nat.eqb_refl, Q. reflexivity.
  - right; right; left. assumption.
  - destruct H0 as (tm & Q). rewrite Q in B. discriminate.
  - match goal with Q : forall u : tid, _ |- _ => destruct (Q t) as [A B'] end.
    destruct (csleeps_dec s c t) as [[tm Q]|Q]; [rewrite Q in B; discriminate|rewrite (B' Q); now left].
  - destruct H0 as [(ow & Q)|(c & Q)]; rewrite Q in B; discriminate.
Qed.
(** who falls asleep on the mutex *)
Lemma to_sleep s l s' t : step s l s' -> lsleeps s' t -> lsleeps s t \/ locked s' = true.
Proof.
  intros H D. unfold lsleeps in *. inversion H; subst; clear H; cbn [held locked owner set_held set_lock set_th th] in *;
    try (match goal with D : context [Nat.eqb t ?t0] |- _ => destruct (Nat.eqb_spec t t0) end; [subst t; destruct D as (tm' & ow' & D); try discriminate D|left; assumption]).
  - destruct o; discriminate.
  - right. assumption.
  - match goal with Q : th s _ = _ |- _ => rewrite Q in D end; discriminate.
  - match goal with Q : th s _ = _ |- _ => rewrite Q in D end; discriminate.
  - destruct w; discriminate.
  - destruct (Nat.eqb_spec t u); [subst t|].
    + destruct D as (tm' & ow' & D). destruct H1 as (tm1 & ow1 & Q). rewrite Q in D. discriminate.
    + destruct (Nat.eqb_spec t t0); [subst t; destruct D as (tm' & ow' & D); discriminate|]. auto.
  - match goal with Q : th s _ = _ |- _ => rewrite Q in D end; discriminate.
  - match goal with Q : th s _ = _ |- _ => rewrite Q in D end; discriminate.
  - destruct H0 as (tm1 & Q). rewrite Q in D. discriminate.
  - match goal with Q : forall u : tid, _ |- _ => destruct (Q t) as [A B'] end.
    destruct (csleeps_dec s c t) as [Q|Q].
    + destruct D as (tm' & ow' & D). rewrite (A Q) in D. destruct Q as (tm & Q). rewrite Q in D. discriminate.
    + rewrite (B' Q) in D. auto.
  - destruct H0 as [(ow & Q)|(c & Q)]; rewrite Q in D; discriminate.
Qed.

Lemma wake_step s l s' : Iheld s -> Iwake s -> step s l s' -> Iwake s'.
Proof.
  intros I J H (t & D).
  destruct (to_sleep _ _ _ _ H D) as [D0|L]; [|now left].
  destruct J as [L|(u & B)]; [eauto| |].
  - destruct (lock_kept _ _ _ H) as [(Q & _)|(u & C & K)]; [left; congruence|].
    destruct K as [(tm' & ow' & o & K & K1 & K2 & _)|[(tm' & ow' & ab' & K & K1)|(cv & tm' & K & K1)]].
    + right. exists u. now rewrite K1.
    + left. inversion H; subst; clear H; cbn [held locked owner set_held set_lock set_th th] in *; auto; try assumption;
        try congruence; revert K1; match goal with |- context [Nat.eqb u ?t0] => destruct (Nat.eqb_spec u t0) end; intro K1; congruence.
    + right. exists u. now rewrite K1.
  - destruct (busy_step _ _ _ _ H B) as [Q|[Q|[Q|Q]]]; eauto. exfalso. eapply Q; eauto.
Qed.
Lemma exec_wake b s h : exec b s h -> Iwake s.
Proof.
  induction 1.
  - intros (t & tm & ow & D). discriminate.
  - eapply wake_step; eauto. eapply exec_held; eauto.
  - eapply wake_step; eauto. eapply exec_held; eauto.
Qed.

(** * Histories of an atomic mutex *)
Lemma app_snoc_inv {A} (a b : list A) x y : a ++ [x] = b ++ [y] -> a = b /\ x = y.
Proof. apply app_inj_tail. Qed.
Lemma snoc_not_nil {A} (a : list A) x : a ++ [x] <> [].
Proof. destruct a; discriminate. Qed.

Lemma atomic_snoc h e d m : atomic (h ++ [e]) d m ->
  match e with
  | Eff t o r => exists m0, atomic h d m0 /\ accepts d m0 o r m
  | Die t => exists d0, atomic h d0 m
  | _ => atomic h d m
  end.
Proof.
  intro A. remember (h ++ [e]) as hh eqn:E. destruct A;
    try (apply app_inj_tail in E; destruct E; subst; eauto; fail). symmetry in E. now apply snoc_not_nil in E.
Qed.
(** after a lock, with no unlock and no other lock, the mutex is as that lock left it *)
Lemma atomic_after h1 t1 tm1 ow1 r1 h2 d m :
  got r1 -> atomic (h1 ++ Eff t1 (Lock tm1 ow1) r1 :: h2) d m ->
  (forall u cv tm r, ~ In (Eff u (Unlock cv tm) r) h2) -> (forall u tm ow r, got r -> ~ In (Eff u (Lock tm ow) r) h2) ->
  m = Locked ow1.
Proof.
  intros G. revert d m. induction h2 as [|e h2 IH] using rev_ind; intros d m A NU NL.
  - apply atomic_snoc in A. destruct A as (m0 & _ & AC).
    inversion AC; subst; auto. destruct G as [G|(x & G)]; discriminate.
  - rewrite app_comm_cons, app_assoc in A. apply atomic_snoc in A.
    assert (NU' : forall u cv tm r, ~ In (Eff u (Unlock cv tm) r) h2) by (intros u cv tm r Q; eapply NU; apply in_or_app; eauto).
    assert (NL' : forall u tm ow r, got r -> ~ In (Eff u (Lock tm ow) r) h2) by (intros u tm ow r G' Q; eapply NL; eauto; apply in_or_app; eauto).
    destruct e as [t' o'|t' o' r'|t' r'|t'].
    + eapply IH; eauto.
    + destruct A as (m0 & A & AC).
      assert (M0 : m0 = Locked ow1) by (eapply IH; eauto). subst m0.
      inversion AC; subst; auto.
      * exfalso. eapply (NL t' tm ow (RAbandoned d0)); [right; eauto|]. apply in_or_app; right; now left.
      * exfalso. eapply (NU t' cv tm RTrue). apply in_or_app; right; now left.
    + eapply IH; eauto.
    + destruct A as (d0 & A). eapply IH; eauto.
Qed.
Lemma atomic_prefix h1 h2 d m : atomic (h1 ++ h2) d m -> exists d' m', atomic h1 d' m'.
Proof.
  revert d m. induction h2 as [|e h2 IH] using rev_ind; intros d m A.
  - rewrite app_nil_r in A. eauto.
  - rewrite app_assoc in A. apply atomic_snoc in A. destruct e.
    + eauto. + destruct A as (m0 & A & _); eauto. + eauto. + destruct A as (d0 & A); eauto.
Qed.
Lemma atomic_dead h d m x : atomic h d m -> d x = true -> In (Die x) h.
Proof.
  induction 1; cbn; intro D; try discriminate; try (apply in_or_app; left; auto; fail).
  apply in_or_app. apply orb_true_iff in D. destruct D as [D|D]; [|now left; auto].
  apply Nat.eqb_eq in D. subst. right. now left.
Qed.
