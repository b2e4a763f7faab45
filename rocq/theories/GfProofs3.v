(** The dispatch table and the methods of the generic function. *)
From Coq Require Import List Bool Arith ZArith Lia.
From Verif Require Import GfModel GfSpec GfProofs GfProofs2.
Import ListNotations.

Section T.
Variable ax : nat.
(** the table holds exactly the pairs of P *)
Definition tinv (P : method -> nat -> Prop) (h : mhash) : Prop :=
  hgood h /\
  (forall k n lv nl, has (bins h) k n lv nl ->
     NoDup lv /\ (forall m, In m lv <-> P m n /\ leaf m = true /\ nth_error (specs m) ax = k) /\
     (forall m, In m nl <-> P m n /\ leaf m = false /\ nth_error (specs m) ax = k)) /\
  (forall m n, P m n -> exists lv nl, has (bins h) (nth_error (specs m) ax) n lv nl).
Lemma tinv_ext P Q h : (forall m n, P m n <-> Q m n) -> tinv P h -> tinv Q h.
Proof.
  intros E (A & B & C). split; auto. split.
  - intros k n lv nl H. destruct (B _ _ _ _ H) as (B0 & B1 & B2). split; auto. split; intro m; rewrite <- E; auto.
  - intros m n H. apply C. now apply E.
Qed.
Lemma tinv_insert P h m n : tinv P h -> ~ P m n ->
  exists h', mhash_insert h (nth_error (specs m) ax) n m = Some h' /\ tinv (fun m' n' => P m' n' \/ m' = m /\ n' = n) h'.
Proof.
  intros (A & B & C) NP. set (k := nth_error (specs m) ax).
  destruct (insert_spec h k n m A) as (h' & E & G & (J1 & lt0 & nt0 & J2 & J3)). exists h'. split; auto. split; auto.
  assert (L0 : NoDup lt0 /\ (forall x, In x lt0 <-> P x n /\ leaf x = true /\ nth_error (specs x) ax = k) /\
     (forall x, In x nt0 <-> P x n /\ leaf x = false /\ nth_error (specs x) ax = k)).
  { destruct J2 as [J2|(J2 & -> & ->)]; [apply B; auto|]. split; [constructor|].
    split; intro x; (split; [intros []|intros (X & _ & K)]); destruct (C _ _ X) as (a & b & X'); rewrite K in X'; eapply J2; eauto. }
  destruct L0 as (L0 & L1 & L2).
  assert (DEC : forall k' n', (k' = k /\ n' = n) \/ ~ (k' = k /\ n' = n)).
  { intros k' n'. destruct (keq k' k) eqn:K; [apply keq_true in K|].
    - destruct (Nat.eq_dec n' n); tauto.
    - right. intros (Q & _). apply keq_true in Q. congruence. }
  split.
  - intros k' n' lv nl H. destruct (DEC k' n') as [(-> & ->)|N].
    + apply J3 in H. destruct H as (-> & ->). destruct (leaf m) eqn:LF.
      * split; [constructor; auto; rewrite L1; tauto|]. split; intro x; cbn [In]; rewrite ?L1, ?L2; (split; [intuition; subst; auto|]).
        -- intros ([X|(-> & _)] & Y); auto.
        -- intros ([X|(-> & _)] & Y & W); [auto|congruence].
      * split; auto. split; intro x; cbn [In]; rewrite ?L1, ?L2; (split; [intuition; subst; auto|]).
        -- intros ([X|(-> & _)] & Y & W); [auto|congruence].
        -- intros ([X|(-> & _)] & Y); auto.
    + apply J1 in H; auto. destruct (B _ _ _ _ H) as (B0 & B1 & B2). split; auto. split; intro x; rewrite ?B1, ?B2; split; try tauto;
        (intros ([X|(-> & ->)] & Y & W); [auto|exfalso; apply N; auto]).
  - intros x n' H. destruct (DEC (nth_error (specs x) ax) n') as [(K & ->)|N].
    + rewrite K. do 2 eexists. apply J3. split; reflexivity.
    + destruct H as [H|(-> & ->)]; [|exfalso; apply N; auto]. destruct (C _ _ H) as (a & b & X). exists a, b. apply J1; auto.
Qed.
Definition addf (m : method) := fun (o : option mhash) n => match o with Some h => mhash_insert h (nth_error (specs m) ax) n m | None => None end.
Lemma tinv_inserts m ns : forall P h, tinv P h -> NoDup ns -> (forall n, In n ns -> ~ P m n) ->
  exists h', fold_left (addf m) ns (Some h) = Some h' /\ tinv (fun m' n' => P m' n' \/ m' = m /\ In n' ns) h'.
Proof.
  induction ns as [|n ns IH]; intros P h T ND NP; cbn [fold_left].
  - exists h. split; auto. eapply tinv_ext; [|exact T]. intros; cbn; tauto.
  - inversion ND; subst. destruct (tinv_insert P h m n T) as (h1 & E & T1); [apply NP; now left|]. unfold addf at 2. rewrite E.
    destruct (IH _ _ T1) as (h' & E' & T'); auto.
    + intros n' I [Q|(_ & ->)]; [eapply NP; [right; exact I|exact Q]|contradiction].
    + exists h'. split; auto. eapply tinv_ext; [|exact T']. intros m' n'. cbn. intuition (subst; auto).
Qed.
Lemma keys_nodup m : NoDup (keys_of ax m).
Proof. unfold keys_of. destruct (ax <=? req m); [|constructor]. destruct (opt m); [apply seq_NoDup|]. constructor; [intros []|constructor]. Qed.
Lemma tinv_add P h m : tinv P h -> (forall n, ~ P m n) ->
  exists h', add_to ax m h = Some h' /\ tinv (fun m' n' => P m' n' \/ m' = m /\ In n' (keys_of ax m)) h'.
Proof. intros T N. apply (tinv_inserts m (keys_of ax m)); auto. apply keys_nodup. Qed.
Definition of_methods (ms : list method) : method -> nat -> Prop := fun m n => In m ms /\ In n (keys_of ax m).
Lemma tinv_addm ms h m : tinv (of_methods ms) h -> ~ In m ms -> exists h', add_to ax m h = Some h' /\ tinv (of_methods (m :: ms)) h'.
Proof.
  intros T N. destruct (tinv_add _ _ m T) as (h' & E & T'); [intros n (I & _); contradiction|]. exists h'. split; auto.
  eapply tinv_ext; [|exact T']. intros m' n'. unfold of_methods. cbn. intuition (subst; auto).
Qed.
Lemma tinv_build ms : forall done h, NoDup ms -> (forall m, In m ms -> ~ In m done) -> tinv (of_methods done) h ->
  exists h', fold_left (fun o m => match o with Some h => add_to ax m h | None => None end) ms (Some h) = Some h' /\
    tinv (of_methods (ms ++ done)) h'.
Proof.
  induction ms as [|m ms IH]; intros done h ND DJ T; cbn [fold_left app]; [eauto|]. inversion ND; subst.
  destruct (tinv_addm done h m T) as (h1 & E & T1); [apply DJ; now left|]. rewrite E.
  destruct (IH (m :: done) h1) as (h' & E' & T'); auto.
  - intros x I [->|J]; [contradiction|]. eapply DJ; [right; exact I|exact J].
  - exists h'. split; auto. eapply tinv_ext; [|exact T']. intros m' n'. unfold of_methods. rewrite !in_app_iff. cbn. rewrite in_app_iff. tauto.
Qed.
Lemma tinv_empty : tinv (of_methods []) empty_hash.
Proof.
  assert (NH : forall k n lv nl, ~ has (bins empty_hash) k n lv nl).
  { intros k n lv nl H. apply (repeat_spec 32 Free) in H. discriminate. }
  split; [|split].
  - split; cbn [bins empty_hash].
    + apply (repeat_good 5).
    + reflexivity.
    + unfold size. cbn [bins empty_hash]. rewrite cnt_repeat, repeat_length. lia.
    + unfold size. cbn [bins empty_hash]. rewrite repeat_length. lia.
  - intros k n lv nl H. apply NH in H. destruct H.
  - intros m n (H & _). destruct H.
Qed.
Lemma build_ok ms : NoDup ms -> exists h, build ms ax = Some h /\ tinv (of_methods ms) h.
Proof.
  intro ND. set (ms' := filter leaf ms ++ filter (fun m => negb (leaf m)) ms).
  assert (I : forall m, In m ms' <-> In m ms).
  { intro m. unfold ms'. rewrite in_app_iff, !filter_In. destruct (leaf m); cbn; intuition discriminate. }
  assert (ND' : NoDup ms').
  { unfold ms'. clear I. induction ND as [|m ms NI ND IH]; cbn; [constructor|]. destruct (leaf m); cbn.
    - constructor; auto. rewrite in_app_iff, !filter_In. tauto.
    - apply (Permutation.Permutation_NoDup (Permutation.Permutation_middle _ _ m)). constructor; auto.
      rewrite in_app_iff, !filter_In. tauto. }
  destruct (tinv_build ms' [] empty_hash ND' ltac:(intros m _ []) tinv_empty) as (h & E & T). exists h. split; [exact E|].
  eapply tinv_ext; [|exact T]. intros m n. unfold of_methods. rewrite app_nil_r, I. tauto.
Qed.
End T.
