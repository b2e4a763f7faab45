(** Invariants of MutexModel. *)
From Coq Require Import List Bool Arith Lia.
From Verif Require Import MutexModel MutexSpec.
Import ListNotations.

Lemma set_th_same t p s : th (set_th t p s) t = p.
Proof. unfold set_th; cbn. now rewrite Nat.eqb_refl. Qed.
Lemma set_th_other t u p s : u <> t -> th (set_th t p s) u = th s u.
Proof. intro H. unfold set_th; cbn. apply Nat.eqb_neq in H. now rewrite H. Qed.

Definition crit (p : pc) : bool :=
  match p with
  | LLoop _ _ | LSet _ _ _ | LFail _ | LLeave _ _ | UClear _ _ | USignal _ _ | UWait _ _ | ULeave _ | SRead | SLeave _ => true
  | _ => false
  end.
(** the internal mutex is held exactly by the thread inside *)
Definition Iheld (s : st) : Prop := forall t, crit (th s t) = true <-> held s = Some t.

Lemma crit_wake w p : crit (wake w p) = crit p.
Proof. now destruct p. Qed.

Ltac upd :=
  cbn [held locked owner set_held set_lock set_th th] in *;
  repeat (match goal with
          | |- context [Nat.eqb ?a ?b] => destruct (Nat.eqb_spec a b); [subst|]
          | H : context [Nat.eqb ?a ?b] |- _ => destruct (Nat.eqb_spec a b); [subst|]
          end; cbn [held locked owner set_held set_lock set_th th] in *).
(** split a step into its cases and look at every thread mentioned *)
Ltac scase H :=
  inversion H; subst; clear H; unfold lsleeps, csleeps in *;
  repeat match goal with
  | Q : exists _, _ |- _ => destruct Q
  | Q : _ /\ _ |- _ => destruct Q
  | Q : _ \/ _ |- _ => destruct Q
  end; upd;
  repeat match goal with
  | Q : th ?s ?t = ?p, R : context [th ?s ?t] |- _ => lazymatch R with Q => fail | _ => rewrite Q in R end
  | Q : th ?s ?t = ?p |- context [th ?s ?t] => rewrite Q
  end; cbn [wake] in *.

Lemma held_init : Iheld init.
Proof. intro t; cbn. split; discriminate. Qed.

Lemma csleeps_dec s c u : csleeps s c u \/ ~ csleeps s c u.
Proof.
  unfold csleeps. destruct (th s u) eqn:E; try (right; intros [tm H]; discriminate).
  destruct (Nat.eq_dec cv c); [subst; left; eauto | right; intros [tm H]; congruence].
Qed.

(** every step changes few threads; facts used over and over *)
Lemma held_step s l s' : Iheld s -> step s l s' -> Iheld s'.
Proof.
  intros I H. inversion H; subst; clear H; intro k; generalize (I k);
    try (match goal with HT : th s ?t = _ |- _ => pose proof (I t) as IT; rewrite HT in IT; cbn [crit] in IT end);
    try (match goal with HH : held s = None |- _ => rewrite ?HH in * end);
    intro IK.
  - upd; [|exact IK]. destruct o; cbn; exact IT.
  - upd; [|exact IK]. destruct H0 as [H|[(tm & ow & H)|(c & tm & H)]]; rewrite H in IK; exact IK.
  - upd; [cbn; split; auto|]. split; intro Q; [apply IK in Q; discriminate|congruence].
  - upd; [cbn; exact IT|exact IK].
  - upd; [cbn; exact IT|exact IK].
  - upd; [cbn; split; congruence|]. split; intro Q; [|discriminate].
    apply IK in Q. assert (held s = Some t) by now apply IT. congruence.
  - upd; [rewrite crit_wake; exact IK|exact IK].
  - upd; [rewrite crit_wake; exact IK|exact IK].
  - upd; [destruct w; cbn; split; auto|]. split; intro Q; [apply IK in Q; discriminate|congruence].
  - upd; [cbn; exact IT|exact IK].
  - upd; [cbn; exact IT|exact IK].
  - upd; [cbn; split; congruence|]. split; intro Q; [|discriminate].
    apply IK in Q. assert (held s = Some t) by now apply IT. congruence.
  - upd; [cbn; split; auto|]. split; intro Q; [apply IK in Q; discriminate|congruence].
  - upd; [cbn; exact IT|exact IK].
  - destruct H1 as (tm' & ow & H1).
    assert (u <> t) by congruence.
    upd; [rewrite H1; cbn; rewrite H1 in IK; exact IK|cbn; exact IT|exact IK].
  - upd; [cbn; exact IT|exact IK].
  - upd; [cbn; split; congruence|]. split; intro Q; [|discriminate].
    apply IK in Q. assert (held s = Some t) by now apply IT. congruence.
  - upd; [cbn; exact IT|exact IK].
  - upd; [rewrite crit_wake; exact IK|exact IK].
  - upd; [rewrite crit_wake; exact IK|exact IK].
  - upd; [cbn; split; auto|]. split; intro Q; [apply IK in Q; discriminate|congruence].
  - upd; [cbn; split; congruence|]. split; intro Q; [|discriminate].
    apply IK in Q. assert (held s = Some t) by now apply IT. congruence.
  - upd; [cbn; split; auto|]. split; intro Q; [apply IK in Q; discriminate|congruence].
  - upd; [cbn; exact IT|exact IK].
  - upd; [cbn; split; congruence|]. split; intro Q; [|discriminate].
    apply IK in Q. assert (held s = Some t) by now apply IT. congruence.
  - upd; [rewrite crit_wake; exact IK|exact IK].
  - rewrite H0. destruct (H3 k) as [A B]. destruct (csleeps_dec s c k) as [Q|Q].
    + rewrite (A Q), crit_wake. exact IK.
    + rewrite (B Q). exact IK.
  - upd; [rewrite crit_wake; exact IK|exact IK].
Qed.

Lemma exec_held b s h : exec b s h -> Iheld s.
Proof. induction 1; [apply held_init|eapply held_step; eauto..]. Qed.

(** two threads are never both inside *)
Lemma crit_uniq s t u : Iheld s -> crit (th s t) = true -> crit (th s u) = true -> t = u.
Proof. intros I A B. apply I in A. apply I in B. congruence. Qed.

(** * The lock bit while mutex-lock! is about to set it *)
Definition Iset (s : st) : Prop :=
  (forall t tm ow ab, th s t = LSet tm ow ab -> locked s = false)
  /\ (forall t tm ow o, th s t = LSet tm ow (Some o) -> owner s = Some o /\ th s o = Dead)
  /\ (forall t tm ow w, th s t = LWoken tm ow w -> w <> WIntr /\ (w = WTimeout -> tm = true)).

Lemma dead_stays s l s' t : step s l s' -> th s t = Dead -> th s' t = Dead.
Proof.
  intros H D. inversion H; subst; clear H; try (upd; congruence);
  try (match goal with Q : lsleeps _ _ |- _ => destruct Q as (tm' & ow' & Q) end; upd; congruence);
  try (match goal with Q : csleeps _ _ _ |- _ => destruct Q as (tm' & Q) end; upd; congruence);
  try (match goal with Q : _ \/ _ |- _ => destruct Q as [Q|[(tm' & ow' & Q)|(c & tm' & Q)]] end; upd; congruence);
  try (match goal with Q : _ \/ _ |- _ => destruct Q as [(ow' & Q)|(c & Q)] end; upd; congruence).
  match goal with Q : forall u : tid, _ |- _ => destruct (Q t) as [A B] end.
  destruct (csleeps_dec s c t) as [[tm Q]|Q]; [congruence|]. rewrite (B Q); auto.
Qed.

(** what a step does to the lock bit: nothing, or it is done by a thread inside *)
Lemma lock_kept s l s' : step s l s' ->
  (locked s' = locked s /\ owner s' = owner s) \/
  (exists t, crit (th s t) = true /\
     ((exists tm ow o, th s t = LLoop tm ow /\ th s' t = LSet tm ow (Some o) /\ locked s' = false /\ owner s' = Some o
          /\ owner s = Some o /\ th s o = Dead)
      \/ (exists tm ow ab, th s t = LSet tm ow ab /\ th s' t = LLeave ab true)
      \/ (exists cv tm, th s t = UClear cv tm /\ th s' t = USignal cv tm))).
Proof.
  intro H. inversion H; subst; clear H; try (left; split; reflexivity).
  - right. exists t. rewrite H0. split; [reflexivity|]. left. exists tm, ow, o.
    unfold owner_dead in H3. rewrite H2 in H3. destruct (th s o) eqn:E; try discriminate.
    repeat split; auto; upd; congruence.
  - right. exists t. rewrite H0. split; [reflexivity|]. right. left. exists tm, ow, ab. split; auto.
    upd; congruence.
  - right. exists t. rewrite H0. split; [reflexivity|]. right. right. exists cv, tm. split; auto.
    upd; congruence.
  - left; split; auto.
Qed.

(** which steps take a thread to LSet *)
Lemma to_set s evs s' t tm ow ab : step s (Tau evs) s' -> th s' t = LSet tm ow ab ->
  th s t = LSet tm ow ab \/ (th s t = LLoop tm ow /\ ab = None /\ locked s = false /\ locked s' = false)
  \/ (exists o, th s t = LLoop tm ow /\ ab = Some o /\ locked s' = false /\ th s o = Dead /\ owner s' = Some o
        /\ locked s = true /\ owner s = Some o)
  \/ (th s t = LWoken tm ow WIntr).
Proof.
  intros H D. scase H; try discriminate; auto.
  - destruct o; discriminate.
  - right; left. inversion D; subst; auto.
  - right; right; left. inversion D; subst.
    match goal with Q : owner_dead _ = true, R : owner _ = Some _ |- _ => unfold owner_dead in Q; rewrite R in Q end.
    exists o. destruct (th s o) eqn:E; try discriminate. repeat split; auto.
  - destruct w; inversion D; subst. auto.
  - match goal with Q : forall u : tid, _ |- _ => destruct (Q t) as [A B] end.
    destruct (csleeps_dec s c t) as [Q|Q].
    + rewrite (A Q) in D. destruct Q as (tm' & Q). rewrite Q in D. discriminate.
    + rewrite (B Q) in D. auto.
Qed.

Lemma to_woken s evs s' t tm ow w : step s (Tau evs) s' -> th s' t = LWoken tm ow w ->
  th s t = LWoken tm ow w \/ (w = WOk \/ (w = WTimeout /\ tm = true)).
Proof.
  intros H D. scase H; try discriminate; auto; try (inversion D; subst; auto; fail).
  - destruct o; discriminate.
  - destruct w0; discriminate.
  - match goal with Q : forall u : tid, _ |- _ => destruct (Q t) as [A B] end.
    destruct (csleeps_dec s c t) as [Q|Q].
    + rewrite (A Q) in D. destruct Q as (tm' & Q). rewrite Q in D. discriminate.
    + rewrite (B Q) in D. auto.
Qed.

Lemma set_step s evs s' : Iheld s -> Iset s -> step s (Tau evs) s' -> Iset s'.
Proof.
  intros I (A & B & W) H. repeat split.
  - intros t tm ow ab D.
    pose proof (to_set _ _ _ _ _ _ _ H D) as [Q|[(Q & _ & _ & Q')|[(o & Q & _ & Q' & _)|Q]]]; auto.
    + destruct (lock_kept _ _ _ H) as [(L & _)|(u & C & K)].
      * rewrite L. eauto.
      * assert (u = t) by (eapply crit_uniq; eauto; rewrite Q; reflexivity). subst u.
        destruct K as [(tm' & ow' & o & K & K1 & K2 & _)|[(tm' & ow' & ab' & K & K1)|(cv & tm' & K & K1)]]; congruence.
    + exfalso. eapply (proj1 (W _ _ _ _ Q)); reflexivity.
  - pose proof (to_set _ _ _ _ _ _ _ H H0) as [Q|[(Q & Q1 & _)|[(o' & Q & Q1 & Q' & Q2 & Q3 & _ & _)|Q]]]; [|discriminate| |].
    + destruct (B _ _ _ _ Q) as (Q1 & Q2).
      destruct (lock_kept _ _ _ H) as [(_ & L)|(u & C & K)]; [congruence|].
      assert (u = t) by (eapply crit_uniq; eauto; rewrite Q; reflexivity). subst u.
      destruct K as [(tm' & ow' & o' & K & K1 & K2 & K3)|[(tm' & ow' & ab' & K & K1)|(cv & tm' & K & K1)]]; congruence.
    + congruence.
    + exfalso. eapply (proj1 (W _ _ _ _ Q)); reflexivity.
  - pose proof (to_set _ _ _ _ _ _ _ H H0) as [Q|[(Q & Q1 & _)|[(o' & Q & Q1 & Q' & Q2 & Q3 & _ & _)|Q]]]; [|discriminate| |].
    + destruct (B _ _ _ _ Q) as (Q1 & Q2). eapply dead_stays; eauto.
    + assert (o' = o) by congruence. subst. eapply dead_stays; eauto.
    + exfalso. eapply (proj1 (W _ _ _ _ Q)); reflexivity.
  - pose proof (to_woken _ _ _ _ _ _ _ H H0) as [Q|[Q|(Q & Q')]]; try congruence. now apply W in Q.
  - pose proof (to_woken _ _ _ _ _ _ _ H H0) as [Q|[Q|(Q & Q')]]; try congruence. now apply W in Q.
Qed.

Lemma exec_set s h : exec false s h -> Iset s.
Proof.
  induction 1; try discriminate.
  - split; [|split]; cbn; discriminate.
  - eapply set_step; eauto. eapply exec_held; eauto.
Qed.

(** * The effects are those of an atomic mutex *)
(** the atomic mutex a state stands for *)
Definition abs (s : st) (m : mx) : Prop :=
  (forall t tm ow o, th s t = LSet tm ow (Some o) -> m = Locked (Some o))
  /\ ((forall t tm ow o, th s t <> LSet tm ow (Some o)) -> m = if locked s then Locked (owner s) else Free).

Lemma from_set s evs s' t tm ow ab : step s (Tau evs) s' -> th s t = LSet tm ow ab ->
  th s' t = LSet tm ow ab \/ (th s' t = LLeave ab true /\ evs = [Eff t (Lock tm ow) (lock_res ab true)] /\ s' = set_lock true ow (set_th t (LLeave ab true) s)).
Proof.
  intros H D. inversion H; subst; clear H; unfold lsleeps, csleeps in *;
  repeat match goal with
  | Q : exists _, _ |- _ => destruct Q
  | Q : _ \/ _ |- _ => destruct Q
  end; cbn [held locked owner set_held set_lock set_th th];
  try (match goal with |- context [Nat.eqb t ?u] => destruct (Nat.eqb_spec t u); [subst t|] end); auto; try congruence.
  - right. match goal with Q : th s t0 = LSet _ _ _ |- _ => rewrite Q in D end. inversion D; subst. auto.
  - match goal with |- context [Nat.eqb t ?u] => destruct (Nat.eqb_spec t u); [subst t|] end; auto; congruence.
  - match goal with Q : forall u : tid, _ |- _ => destruct (Q t) as [A B] end.
    destruct (csleeps_dec s c t) as [[tm' Q]|Q]; [congruence|]. rewrite (B Q). auto.
Qed.

Lemma is_dead_wake w p : is_dead (wake w p) = is_dead p.
Proof. now destruct p. Qed.
Lemma dead_kept s evs s' t : step s (Tau evs) s' -> ~ In (Die t) evs -> is_dead (th s' t) = is_dead (th s t).
Proof.
  intros H N. inversion H; subst; clear H; cbn [held locked owner set_held set_lock set_th th];
    repeat (match goal with |- context [Nat.eqb t ?u] => destruct (Nat.eqb_spec t u); [subst t; rewrite ?is_dead_wake|] end);
    try reflexivity;
    try (match goal with Q : th s ?u = _ |- is_dead _ = is_dead (th s ?u) => rewrite Q; try reflexivity end);
    rewrite ?is_dead_wake; try reflexivity.
  - now destruct o.
  - exfalso. apply N. now left.
  - now destruct w.
  - match goal with Q : forall u : tid, _ |- _ => destruct (Q t) as [A B] end.
    destruct (csleeps_dec s c t) as [Q|Q].
    + rewrite (A Q). apply is_dead_wake.
    + now rewrite (B Q).
Qed.

Lemma abs_keep s evs s' m : Iset s -> step s (Tau evs) s' -> locked s' = locked s -> owner s' = owner s ->
  (forall t tm ow ab, th s t = LSet tm ow ab -> th s' t = LSet tm ow ab) -> abs s m -> abs s' m.
Proof.
  intros (S1 & S2 & S3) H L O K (A & B). split.
  - intros t tm ow o D.
    pose proof (to_set _ _ _ _ _ _ _ H D) as [Q|[(Q & Q1 & _)|[(o' & Q & Q1 & Q' & Q2 & Q3 & Q4 & _)|Q]]];
      [eauto|discriminate|congruence|]. exfalso. eapply (proj1 (S3 _ _ _ _ Q)); reflexivity.
  - intro D. rewrite L, O. apply B. intros t tm ow o Q. eapply D. apply K. exact Q.
Qed.

Lemma exec_atomic s h : exec false s h ->
  exists d m, atomic h d m /\ abs s m /\ forall t, d t = is_dead (th s t).
Proof.
  induction 1; try discriminate.
  - exists (fun _ => false), Free. split; [constructor|]. split; [|reflexivity]. split; cbn; [discriminate|reflexivity].
  - destruct IHexec as (d & m & AT & AB & DD).
    pose proof (exec_held _ _ _ H) as I. pose proof (exec_set _ _ H) as IS.
    pose proof IS as (S1 & S2 & S3).
    assert (KD : (forall t, ~ In (Die t) evs) -> forall t, d t = is_dead (th s' t))
      by (intros N t; rewrite (dead_kept _ _ _ _ H0 (N t)); apply DD).
    assert (KA : locked s' = locked s -> owner s' = owner s ->
      (forall t o r, ~ In (Eff t o r) evs \/ (o = State) \/ r = RFalse) -> abs s' m).
    { intros L O N. eapply abs_keep; eauto. intros t tm ow ab Q.
      destruct (from_set _ _ _ _ _ _ _ H0 Q) as [W|(_ & W & _)]; auto.
      subst evs. destruct (N t (Lock tm ow) (lock_res ab true)) as [N'|[N'|N']];
        [exfalso; apply N'; now left|discriminate|destruct ab; discriminate]. }
    pose proof H0 as ST.
    inversion H0; subst; clear H0; rewrite ?app_nil_r;
      try (exists d, m; split; [first [assumption|constructor; assumption]|]; split;
        [apply KA; try reflexivity; try assumption; intros; try (now left); left; intros [N|[]]; discriminate
        |apply KD; intros ? [N|[]]; discriminate]; fail);
      try (exists d, m; split; [first [assumption|constructor; assumption]|]; split;
        [apply KA; try reflexivity; try assumption; intros; left; intros [] |apply KD; intros ? []]; fail).
    + (* Die *)
      exists (fun k => Nat.eqb k t || d k), m. split; [now constructor|]. split.
      * apply KA; try reflexivity. intros. left. intros [N|[]]; discriminate.
      * intro k. unfold set_th; cbn. destruct (Nat.eqb_spec k t); [reflexivity|]. apply DD.
    + (* abandoned *)
      exists d, m. split; [assumption|]. split; [|apply KD; intros ? []].
      destruct AB as (A & B).
      assert (L1 : locked s = true) by assumption. assert (O1 : owner s = Some o) by assumption.
      assert (M : m = Locked (Some o)).
      { rewrite B; [rewrite L1, O1; reflexivity|]. intros u tm' ow' o' Q. rewrite (S1 _ _ _ _ Q) in L1. discriminate. }
      split.
      * intros u tm' ow' o' Q. revert Q. unfold set_lock, set_th; cbn.
        destruct (Nat.eqb_spec u t); intro Q; [congruence|]. rewrite (S1 _ _ _ _ Q) in L1. discriminate.
      * intro N. exfalso. apply (N t tm ow o). unfold set_lock, set_th; cbn. now rewrite Nat.eqb_refl.
    + (* the lock is taken *)
      assert (P1 : th s t = LSet tm ow ab) by assumption.
      assert (MM : accepts d m (Lock tm ow) (lock_res ab true) (Locked ow)).
      { destruct AB as (A & B). destruct ab as [o|].
        - rewrite (A _ _ _ _ P1). cbn. constructor. rewrite DD. now rewrite (proj2 (S2 _ _ _ _ P1)).
        - rewrite B; [rewrite (S1 _ _ _ _ P1); constructor|].
          intros u tm' ow' o' Q. assert (u = t) by (eapply crit_uniq; eauto; [rewrite Q|rewrite P1]; reflexivity).
          subst u. congruence. }
      exists d, (Locked ow). split; [econstructor; eauto|]. split; [|apply KD; intros ? [N|[]]; discriminate].
      split; [|reflexivity].
      intros u tm' ow' o' Q. revert Q. unfold set_lock, set_th; cbn.
      destruct (Nat.eqb_spec u t); intro Q; [congruence|].
      assert (u = t) by (eapply crit_uniq; eauto; [rewrite Q|rewrite P1]; reflexivity). congruence.
    + (* timed out *)
      exists d, m. split; [econstructor; eauto; constructor|]. split; [|apply KD; intros ? [N|[]]; discriminate].
      apply KA; try reflexivity. intros u o r. destruct r; auto; left; intros [N|[]]; discriminate.
    + (* unlock *)
      assert (P1 : th s t = UClear cv tm) by assumption.
      exists d, Free. split; [econstructor; eauto; constructor|]. split; [|apply KD; intros ? [N|[]]; discriminate].
      split; [|reflexivity].
      intros u tm' ow' o' Q. revert Q. unfold set_lock, set_th; cbn.
      destruct (Nat.eqb_spec u t); intro Q; [congruence|].
      assert (u = t) by (eapply crit_uniq; eauto; [rewrite Q|rewrite P1]; reflexivity). congruence.
    + (* mutex-state *)
      assert (P1 : th s t = SRead) by assumption.
      exists d, m. split; [econstructor; eauto|]. 
      * destruct AB as (A & B).
        rewrite B by (intros u tm' ow' o' Q; assert (u = t) by (eapply crit_uniq; eauto; [rewrite Q|rewrite P1]; reflexivity); congruence).
        unfold state_get. destruct (locked s); [|constructor].
        destruct (owner s) as [o|]; [|constructor].
        destruct (is_dead (th s o)) eqn:E; constructor; now rewrite DD.
      * split; [|apply KD; intros ? [N|[]]; discriminate].
        apply KA; try reflexivity. intros u o r. destruct o; auto; left; intros [N|[]]; discriminate.
Qed.
