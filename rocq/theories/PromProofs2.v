(** Every step keeps the invariants of promises. *)
From Coq Require Import List Bool Arith Lia.
From Verif Require Import PromModel PromSpec PromProofs.
Import ListNotations.

Lemma ext_same m s s' : np s' = np s -> cont s' = cont s -> ptr s' = ptr s -> ext m s s'.
Proof. intros N C P. split; unfold vis, out; rewrite ?N, ?C, ?P; auto. Qed.
Lemma ext_write m s s' c y : np s' = np s -> cont s' = upd (cont s) c y -> ptr s' = ptr s ->
  sta (cont s c) = Unforced -> ext m s s'.
Proof.
  intros N C P U.
  assert (O : forall p k, out s p = Some k -> out s' p = Some k).
  { intros p k. unfold out. rewrite C, P. destruct (Nat.eq_dec (ptr s p) c) as [->|NE]; [now rewrite U|].
    now rewrite upd_other. }
  split; auto.
  - lia.
  - intros c0 _ S. rewrite C. apply upd_other. congruence.
  - intros _ p c0 _ _ [->|(S & Q)]; [left; now rewrite P|right].
    rewrite C, upd_other by congruence. auto.
Qed.
Lemma ext_move m s s' r c : np s' = np s -> cont s' = cont s -> ptr s' = upd (ptr s) r c ->
  r < np s -> mv m s r (sta (cont s c)) (code (cont s c)) -> ext m s s'.
Proof.
  intros N C P R (M1 & M2).
  assert (OR : out s' r = match sta (cont s c) with Unforced => None | _ => Some (code (cont s c)) end).
  { unfold out. now rewrite P, upd_same, C. }
  assert (O : forall p k, p < np s -> out s p = Some k -> out s' p = Some k).
  { intros p k L. destruct (Nat.eq_dec p r) as [->|NE].
    - rewrite OR. intro Q. destruct (sta (cont s c)); [destruct (M2 eq_refl); congruence| |]; rewrite <- M1; congruence.
    - unfold out. now rewrite C, P, upd_other. }
  split; auto.
  - lia.
  - intros. now rewrite C.
  - intros M p c0 L _ [->|(S & Q)]; [|right; rewrite C; auto].
    destruct (Nat.eq_dec p r) as [->|NE]; [|left; now rewrite P, upd_other].
    right. rewrite C.
    assert (S : sta (cont s c) <> Unforced) by (intro U; destruct (M2 U); congruence).
    specialize (M1 S). pose proof M1 as Q. unfold out in Q.
    assert (S2 : sta (cont s (ptr s r)) <> Unforced) by (intro U; rewrite U in Q; discriminate).
    split; auto. rewrite (O r _ R M1). destruct (sta (cont s (ptr s r))); congruence.
Qed.
Lemma ext_new m s x : (forall p, p < np s -> ptr s p < np s) -> ext m s (new_promise x s).
Proof.
  intro B.
  assert (CC : forall c, c < np s -> cont (new_promise x s) c = cont s c) by (intros; cbn; apply upd_other; lia).
  assert (PP : forall c, c < np s -> ptr (new_promise x s) c = ptr s c) by (intros; cbn; apply upd_other; lia).
  assert (O : forall p, p < np s -> out (new_promise x s) p = out s p) by (intros p L; unfold out; now rewrite PP, CC by auto).
  split.
  - cbn. lia.
  - auto.
  - intros p k L Q. now rewrite O.
  - intros _ p c L L2 [->|(S & Q)]; [left; now rewrite PP|right]. rewrite CC, O; auto.
Qed.

Lemma inv_move m s s' t x : inv m s -> (m = false -> turns s t) -> ext m s s' ->
  (forall u c, u <> t -> c < np s -> lock s c = Some u -> lock s' c = Some u /\ cont s' c = cont s c) ->
  (forall u, th s' u = upd (th s) t x u) -> PI m s' t x ->
  (forall p, p < np s' -> ptr s' p < np s') -> (forall c, c < np s' -> wfc (sta (cont s' c)) (code (cont s' c))) ->
  (forall c u, c < np s' -> lock s' c = Some u -> (c < np s /\ lock s c = Some u /\ (u = t -> holder x c)) \/ (u = t /\ holder x c)) ->
  (forall p k, In (p, k) (runs s') -> p < np s') -> inv m s'.
Proof.
  intros I T X F TH P A B L RN. split; auto.
  - intros u. rewrite TH. destruct (Nat.eq_dec u t) as [->|NE]; [now rewrite upd_same|rewrite upd_other by auto].
    destruct m.
    + eapply PI_frame; eauto. apply (i_th _ _ I).
    + rewrite T by auto. exact Logic.I.
  - intros c u LT Q. rewrite TH. destruct (L c u LT Q) as [(LT2 & Q2 & E)|(-> & H)].
    + destruct (Nat.eq_dec u t) as [->|NE]; [rewrite upd_same; auto|rewrite upd_other by auto].
      now apply (i_lock _ _ I).
    + now rewrite upd_same.
  - intros M u v. rewrite !TH. specialize (T M).
    destruct (Nat.eq_dec u t) as [->|NE], (Nat.eq_dec v t) as [->|NE2]; auto; unfold upd;
      repeat match goal with |- context [Nat.eqb ?a ?b] => destruct (Nat.eqb_spec a b) end; try congruence;
      intros U V; exfalso; [apply V|apply U|apply U]; now apply T.
Qed.
(** the history: outcomes stay *)
Definition done (s : st) (h : list ev) : Prop :=
  (forall p vs, In (EEager p vs) h -> p < np s /\ out s p = Some (CVals vs)) /\
  (forall t p k x, In (EDone t p k x) h -> p < np s /\ out s p = Some x).
Definition okm (m : bool) s t (e : list ev) (h : list ev) : Prop :=
  if m then forall u p k r, e = [EResult u p k (RProm r)] -> settled_in h r else turns s t.
Lemma vis_out s p c : vis s p c -> sta (cont s c) <> Unforced -> out s p = Some (code (cont s c)).
Proof. intros [->|(_ & Q)] S; auto. unfold out. destruct (sta (cont s (ptr s p))); congruence. Qed.
Lemma vis_unforced s p c : vis s p c -> sta (cont s c) = Unforced -> c = ptr s p /\ out s p = None.
Proof. intros [->|(S & Q)] U; [|congruence]. split; auto. unfold out. now rewrite U. Qed.

Local Ltac frame_th I t TH X :=
  eapply (inv_move _ _ _ t _ I);
  [assumption
  |apply ext_same; reflexivity
  |intros; split; [assumption|reflexivity]
  |intros; reflexivity
  |cbn [PI goon]
  |exact (i_ptr _ _ I)
  |exact (i_wf _ _ I)
  |intros c0 u0 LT0 Q0; left; split; [exact LT0|split; [exact Q0|intros ->;
     pose proof (i_lock _ _ I _ _ LT0 Q0) as HH0; rewrite TH in HH0; try contradiction; try exact HH0]]
  |try exact (i_runs _ _ I)].
Local Ltac frame_lock I t c TH :=
  eapply (inv_move _ _ _ t _ I);
  [assumption
  |apply ext_same; reflexivity
  |intros u0 c0 NE0 LT0 Q0; split; [cbn; rewrite upd_other by (intros ->; congruence); assumption|reflexivity]
  |intros; reflexivity
  |cbn [PI goon]
  |exact (i_ptr _ _ I)
  |exact (i_wf _ _ I)
  |intros c0 u0 LT0 Q0; cbn in Q0; destruct (Nat.eq_dec c0 c) as [->|NE0];
    [rewrite upd_same in Q0; inversion Q0; subst; right; split; [reflexivity|cbn; reflexivity]
    |rewrite upd_other in Q0 by auto; left; split; [exact LT0|split; [exact Q0|intros ->;
     pose proof (i_lock _ _ I _ _ LT0 Q0) as HH0; rewrite TH in HH0; cbn in HH0; congruence || contradiction]]]
  |exact (i_runs _ _ I)].
Lemma out_settled s p c : vis s p c -> sta (cont s c) <> Unforced -> out s p <> None.
Proof. intros V S. rewrite (vis_out _ _ _ V S). discriminate. Qed.
Lemma settled_done s h r : done s h -> settled_in h r -> out s r <> None.
Proof.
  intros (D1 & D2) [(vs & Q)|(t & k & x & Q)].
  - destruct (D1 _ _ Q) as (_ & ->). discriminate.
  - destruct (D2 _ _ _ _ Q) as (_ & ->). discriminate.
Qed.
Lemma inv_step m s t e s' h : inv m s -> done s h -> okm m s t e h -> step s t e s' -> inv m s'.
Proof.
  intros I D OK ST.
  assert (TN : m = false -> turns s t) by (intros ->; exact OK).
  pose proof (i_th _ _ I t) as P.
  inversion ST; subst;
    match goal with TH : th s t = ?x |- _ =>
      rewrite TH in P; cbn [PI] in P end.
  1,2: (eapply (inv_move _ _ _ t Idle I); eauto;
    [apply ext_new, (i_ptr _ _ I)
    |intros u c NE LT Q; cbn; rewrite !upd_other by lia; auto
    |intros u; cbn; destruct (Nat.eq_dec u t) as [->|NE]; [now rewrite upd_same|now rewrite upd_other]
    |intros p L; cbn in *; destruct (Nat.eq_dec p (np s)) as [->|NE]; [rewrite upd_same; lia|rewrite upd_other by auto];
     assert (p < np s) as L2 by lia; pose proof (i_ptr _ _ I _ L2); lia
    |intros c L; cbn in *; destruct (Nat.eq_dec c (np s)) as [->|NE]; [rewrite upd_same; cbn; eauto|rewrite upd_other by auto];
     apply (i_wf _ _ I); lia
    |intros c u L Q; cbn in *; destruct (Nat.eq_dec c (np s)) as [->|NE]; [rewrite upd_same in Q; discriminate|rewrite upd_other in Q by auto];
     left; split; [lia|]; split; auto; intros ->; assert (c < np s) as L2 by lia;
     pose proof (i_lock _ _ I _ _ L2 Q) as HH; rewrite H in HH; exact HH
    |intros p k Q; cbn in *; pose proof (i_runs _ _ I _ _ Q); lia]).
  - (* force *) frame_th I t H X. exact H0.
  - (* F0 *) frame_th I t H X. split; [exact P|]. split; [now apply (i_ptr _ _ I)|now left].
  - frame_th I t H X. split; [exact P|]. auto.
  - frame_th I t H X. exact P.
  - frame_th I t H X. exact Logic.I.
  - frame_th I t H X. exact P.
  - frame_th I t H X; [exact Logic.I|]. cbn. intros p0 k0 [Q|Q]; [inversion Q; subst; apply P|now apply (i_runs _ _ I _ k0)].
  - (* result *) frame_th I t H X. 
    assert (R : p < np s) by now apply (i_runs _ _ I _ k).
    split; [exact R|]. destruct r as [vs|q|ex]; cbn; auto. split; auto. intros ->. cbn in OK.
    eapply settled_done; eauto.
  - (* C0 *) frame_th I t H X. destruct P as (P1 & P2). split; auto. split; [exact P1|]. split; [now apply (i_ptr _ _ I)|now left].
  - (* C1 settled *) destruct P as (P1 & P2). destruct r; frame_th I t H X; try (destruct P1; assumption); cbn.
    split; [exact P1|exact H1].
  - (* lock, values *) destruct P as (P1 & P2). frame_lock I t c H.
    split; [split; [exact P1|split; [cbn; apply upd_same|exact H1]]|cbn; eauto].
  - destruct P as (P1 & P2). frame_lock I t c H.
    split; [split; [exact P1|split; [cbn; apply upd_same|exact H1]]|cbn; eauto].
  - destruct P as (P1 & P2). frame_lock I t c H.
    split; [split; [exact P1|split; [cbn; apply upd_same|exact H1]]|exact P2].
  - (* C2 *) destruct P as (P1 & P2 & P3). frame_th I t H X. split; [exact P1|]. split; [split; auto|].
    split; [now apply (i_ptr _ _ I)|]. destruct m; [|reflexivity].
    assert (O : out s r <> None) by auto. unfold out in O.
    change (sta (cont s (ptr s r)) <> Unforced /\ out s r = Some (code (cont s (ptr s r)))). unfold out.
    destruct (sta (cont s (ptr s r))); try congruence; split; auto; discriminate.
  - (* C3 *) destruct P as (P1 & P2 & P3). frame_th I t H X. split; [exact P1|]. split; [exact P2|]. split; [exact P3|reflexivity].
  - (* C4: write the code *) destruct P as (P1 & P2 & P3 & P4). destruct P1 as ((P1 & P1' & P1v) & PL & PU).
    assert (X : ext m s (set_cont c (set_code k (cont s c)) (set_th t (C5 p c r cc) s))) by (eapply ext_write; eauto; reflexivity).
    eapply (inv_move _ _ _ t _ I); eauto.
    + intros u c0 NE LT Q. split; [exact Q|]. cbn. apply upd_other. congruence.
    + intros; reflexivity.
    + cbn [PI].
      assert (V : vis (set_cont c (set_code k (cont s c)) (set_th t (C5 p c r cc) s)) p c).
      { left. apply (vis_unforced _ _ _ P1v PU). }
      split; [split; [split; [exact P1|split; [exact P1'|exact V]]|split; [exact PL|cbn; rewrite upd_same; exact PU]]|].
      split; [destruct P2 as (P2 & P2'); split; [exact P2|]; intros M; specialize (P2' M); destruct (out s r) eqn:O; [|congruence];
              rewrite (x_out _ _ _ X _ _ P2 O); discriminate|].
      split.
      * destruct P3 as (P3 & P3'). split; [exact P3|]. destruct m; [|exact P3'].
        destruct P3' as (P3' & P3''). cbn. rewrite upd_other by congruence. split; auto.
        apply (x_out _ _ _ X); auto. apply P2.
      * cbn. rewrite upd_same. cbn. destruct (Nat.eq_dec cc c) as [->|NE]; [now rewrite upd_same|now rewrite upd_other].
    + exact (i_ptr _ _ I).
    + intros c0 LT. cbn in *. destruct (Nat.eq_dec c0 c) as [->|NE]; [rewrite upd_same; cbn; now rewrite PU|].
      rewrite upd_other by auto. now apply (i_wf _ _ I).
    + intros c0 u LT Q. left. split; [exact LT|]. split; [exact Q|]. intros ->.
      pose proof (i_lock _ _ I _ _ LT Q) as HH. rewrite H in HH. exact HH.
    + exact (i_runs _ _ I).
  - (* C5: read the state *) destruct P as (P1 & P2 & P3 & P4). frame_th I t H X. split; [exact P1|]. cbn.
    split; [apply P2|]. destruct P3 as (P3 & P3'). split.
    + split.
      * intros S. change (out s r = Some (code (cont s c))). rewrite P4. destruct m; [apply P3'|].
        subst cc. apply (vis_out s r (ptr s r)); [now left|exact S].
      * intros U. destruct m; [destruct P3'; congruence|]. split; auto. subst cc.
        change (out s r = None). unfold out. now rewrite U.
    + rewrite P4. now apply (i_wf _ _ I).
  - (* CW *) destruct P as (P1 & P2). destruct P1 as ((P1 & P1' & P1v) & PL & PU).
    assert (X : ext m s (set_cont c (set_code k (cont s c)) (set_th t (C6 p c v a) s))) by (eapply ext_write; eauto; reflexivity).
    eapply (inv_move _ _ _ t _ I); eauto.
    + intros u c0 NE LT Q. split; [exact Q|]. cbn. apply upd_other. congruence.
    + intros; reflexivity.
    + cbn [PI].
      assert (V : vis (set_cont c (set_code k (cont s c)) (set_th t (C6 p c v a) s)) p c).
      { left. apply (vis_unforced _ _ _ P1v PU). }
      split; [split; [split; [exact P1|split; [exact P1'|exact V]]|split; [exact PL|cbn; rewrite upd_same; exact PU]]|].
      cbn [cont set_cont]. rewrite upd_same. cbn [code set_code].
      destruct a; cbn in *; auto. destruct P2 as (P2 & (M1 & M2) & P3). split; auto. split; auto. split.
      * intros S. apply (x_out _ _ _ X); auto.
      * intros U. destruct (M2 U) as (-> & O). split; auto.
        pose proof O as O2. unfold out in O2 |- *. cbn. destruct (Nat.eq_dec (ptr s r) c) as [->|NE];
          [rewrite upd_same; cbn; now rewrite PU|rewrite upd_other by auto]. exact O2.
    + exact (i_ptr _ _ I).
    + intros c0 LT. cbn in *. destruct (Nat.eq_dec c0 c) as [->|NE]; [rewrite upd_same; cbn; now rewrite PU|].
      rewrite upd_other by auto. now apply (i_wf _ _ I).
    + intros c0 u LT Q. left. split; [exact LT|]. split; [exact Q|]. intros ->.
      pose proof (i_lock _ _ I _ _ LT Q) as HH. rewrite H in HH. exact HH.
    + exact (i_runs _ _ I).
  - (* C6: write the state *) destruct P as (P1 & P2). destruct P1 as ((P1 & P1' & P1v) & PL & PU).
    set (x := match a with AMove r => C7 p c r | _ => C8 p c a end).
    assert (X : ext m s (set_cont c (set_state v (cont s c)) (set_th t x s))) by (eapply ext_write; eauto; reflexivity).
    eapply (inv_move _ _ _ t x I); eauto.
    + intros u c0 NE LT Q. split; [exact Q|]. cbn. apply upd_other. congruence.
    + assert (V : vis (set_cont c (set_state v (cont s c)) (set_th t x s)) p c).
      { left. apply (vis_unforced _ _ _ P1v PU). }
      assert (A : at_ (set_cont c (set_state v (cont s c)) (set_th t x s)) p c) by (split; [exact P1|split; [exact P1'|exact V]]).
      assert (EX : x = match a with AMove r => C7 p c r | _ => C8 p c a end) by reflexivity. clearbody x. subst x.
      destruct a; cbn [PI].
      * split; [exact A|]. split; [exact PL|]. cbn. rewrite upd_same. cbn. destruct P2. congruence.
      * split; [exact A|]. split; [exact PL|]. cbn in P2. destruct P2 as (P2 & (M1 & M2) & P3). split; [exact P2|].
        cbn [cont set_cont]. rewrite upd_same. cbn [code sta set_state]. split.
        -- intros S. apply (x_out _ _ _ X); auto.
        -- intros ->. destruct (M2 eq_refl) as (-> & O). split; auto.
           pose proof O as O2. unfold out in O2 |- *. cbn. destruct (Nat.eq_dec (ptr s r) c) as [->|NE];
             [rewrite upd_same; reflexivity|rewrite upd_other by auto]. exact O2.
      * split; [exact A|]. split; [exact PL|]. cbn. rewrite upd_same. cbn. destruct P2. congruence.
    + exact (i_ptr _ _ I).
    + intros c0 LT. cbn in *. destruct (Nat.eq_dec c0 c) as [->|NE]; [rewrite upd_same; cbn|rewrite upd_other by auto; now apply (i_wf _ _ I)].
      destruct a; cbn in P2; destruct P2 as (P2 & P3); [subst v|apply P3|subst v]; exact P3.
    + intros c0 u LT Q. left. split; [exact LT|]. split; [exact Q|]. intros ->.
      pose proof (i_lock _ _ I _ _ LT Q) as HH. rewrite H in HH. cbn in HH. subst c0. destruct a; reflexivity.
    + exact (i_runs _ _ I).
  - (* C7: redirect r *) destruct P as (P1 & PL & P2 & P3). 
    assert (X : ext m s (set_ptr r c (set_th t (C8 p c (AMove r)) s))) by (eapply ext_move; eauto; reflexivity).
    eapply (inv_move _ _ _ t _ I); eauto.
    + intros; reflexivity.
    + cbn [PI]. destruct P1 as (P1 & P1' & P1v). split; [split; [exact P1|split; [exact P1'|]]|split; [exact PL|cbn; intros M U; destruct P3 as (_ & P3); destruct (P3 U); congruence]].
      destruct m; [now apply (x_vis _ _ _ X)|].
      destruct (Nat.eq_dec p r) as [->|NE]; [left; cbn; now rewrite upd_same|].
      destruct P1v as [->|(S & O)]; [left; cbn; now rewrite upd_other|right]. split; [exact S|]. now apply (x_out _ _ _ X).
    + intros p0 LT. cbn in *. destruct (Nat.eq_dec p0 r) as [->|NE]; [rewrite upd_same; apply P1|rewrite upd_other by auto; now apply (i_ptr _ _ I)].
    + exact (i_wf _ _ I).
    + intros c0 u LT Q. left. split; [exact LT|]. split; [exact Q|]. intros ->.
      pose proof (i_lock _ _ I _ _ LT Q) as HH. rewrite H in HH. exact HH.
    + exact (i_runs _ _ I).
  - (* C8: unlock *) destruct P as (P1 & PL & P2).
    eapply (inv_move _ _ _ t _ I); eauto.
    + apply ext_same; reflexivity.
    + intros u c0 NE LT Q. split; [cbn; rewrite upd_other by congruence; exact Q|reflexivity].
    + intros; reflexivity.
    + destruct a; cbn [PI goon]; try (apply P1). split; [exact P1|exact P2].
    + exact (i_ptr _ _ I).
    + exact (i_wf _ _ I).
    + intros c0 u LT Q. cbn in Q. destruct (Nat.eq_dec c0 c) as [->|NE]; [rewrite upd_same in Q; discriminate|rewrite upd_other in Q by auto].
      left. split; [exact LT|]. split; [exact Q|]. intros ->.
      pose proof (i_lock _ _ I _ _ LT Q) as HH. rewrite H in HH. cbn in HH. congruence.
    + exact (i_runs _ _ I).
  - (* H4 *) frame_th I t H X. exact Logic.I.
Qed.

Lemma step_ext m s t e s' : inv m s -> step s t e s' -> ext m s s'.
Proof.
  intros I ST. pose proof (i_th _ _ I t) as P.
  inversion ST; subst; rewrite H in P; cbn [PI] in P; try (apply ext_same; reflexivity).
  - apply ext_new, (i_ptr _ _ I).
  - apply ext_new, (i_ptr _ _ I).
  - destruct P as (((P1 & P1' & P1v) & PL & PU) & _). eapply ext_write; eauto; reflexivity.
  - destruct P as (((P1 & P1' & P1v) & PL & PU) & _). eapply ext_write; eauto; reflexivity.
  - destruct P as (((P1 & P1' & P1v) & PL & PU) & _). eapply ext_write; eauto; reflexivity.
  - destruct P as (P1 & PL & P2 & P3). eapply ext_move; eauto; reflexivity.
Qed.
Lemma done_ext m s s' h : ext m s s' -> done s h -> done s' h.
Proof.
  intros X (D1 & D2). pose proof (x_np _ _ _ X). split.
  - intros p vs Q. destruct (D1 _ _ Q) as (A & B). split; [lia|]. now apply (x_out _ _ _ X).
  - intros t p k x Q. destruct (D2 _ _ _ _ Q) as (A & B). split; [lia|]. now apply (x_out _ _ _ X).
Qed.
Lemma done_step m s t e s' h : inv m s -> done s h -> step s t e s' -> done s' (h ++ e).
Proof.
  intros I D ST. pose proof (step_ext _ _ _ _ _ I ST) as X. pose proof (done_ext _ _ _ _ X D) as (D1 & D2).
  pose proof (i_th _ _ I t) as P.
  assert (E : (forall p vs, In (EEager p vs) e -> p < np s' /\ out s' p = Some (CVals vs)) /\
              (forall t p k x, In (EDone t p k x) e -> p < np s' /\ out s' p = Some x)).
  { inversion ST; subst; rewrite H in P; cbn [PI] in P;
      (split; [intros p0 vs0 Q|intros t0 p0 k0 x0 Q]); cbn in Q; try (destruct Q; fail);
      destruct Q as [Q|[]]; inversion Q; subst.
    - cbn. split; [lia|]. unfold out. cbn. rewrite upd_same, upd_same. reflexivity.
    - destruct P as ((P1 & P1' & P1v) & P2 & P3). split; [exact P1|]. apply (vis_out s); auto. congruence.
    - destruct P as ((P1 & P1' & P1v) & P2). split; [exact P1|]. apply (vis_out s); auto. }
  destruct E as (E1 & E2). split.
  - intros p vs Q. apply in_app_or in Q. destruct Q; eauto.
  - intros u p k x Q. apply in_app_or in Q. destruct Q; eauto.
Qed.
Lemma inv_init m : inv m init.
Proof.
  split; cbn; intros; try lia; auto; try contradiction.
Qed.
Definition good (m : bool) (ok : st -> tid -> Prop) (h : list ev) : Prop :=
  if m then tame h else forall s t, ok s t -> turns s t.
Lemma tame_app h e : tame (h ++ e) -> tame h.
Proof. intros T h1 t p k r h2 ->. eapply T. rewrite <- app_assoc. reflexivity. Qed.
Lemma good_app m ok h e : good m ok (h ++ e) -> good m ok h.
Proof. destruct m; cbn; auto. apply tame_app. Qed.
Lemma good_okm m ok s t h e : good m ok (h ++ e) -> ok s t -> okm m s t e h.
Proof.
  destruct m; cbn; auto. intros T _ u p k r ->. eapply T. reflexivity.
Qed.
Lemma exec_inv m ok s h : exec ok s h -> good m ok h -> inv m s /\ done s h.
Proof.
  induction 1 as [|s h t e s' E IH O ST]; intro G.
  - split; [apply inv_init|]. split; cbn; tauto.
  - destruct (IH (good_app _ _ _ _ G)) as (I & D). split.
    + eapply inv_step; eauto. eapply good_okm; eauto.
    + eapply done_step; eauto.
Qed.
