(** %stable-sort!, stable-sort!, stable-sort. *)
From Coq Require Import List Bool ZArith Permutation Lia.
From Verif Require Import Outcome ListModel ListSpec ListProofs ListProofs2 ListProofs3 ListProofs4 SortModel SortSpec SortProofs2 SortProofs3.
Import ListNotations.
Ltac Zify.zify_post_hook ::= idtac.

Lemma proper_length : forall h v A xs, closed h -> seg h v A xs Nil -> scm_length h v = Ok (Z.of_nat (length xs)).
Proof.
  intros h v A xs C Sg. unfold scm_length.
  assert (LO : list_of h v xs Nil) by (split; [intros (a & X); discriminate|eauto]).
  pose proof (list_of_in_heap _ _ _ _ LO) as I0.
  destruct (list_of_finite _ _ _ _ LO) as [F Ev].
  destruct (length2_ok h C v false I0) as [(n & Ln & F' & E)|(Ee & E)].
  - rewrite (finite_unique _ _ _ _ F' F) in *. rewrite E, Ev. unfold len_answer. cbn [nullp orb bind].
    destruct (Z.ltb_spec (Z.of_nat (length xs)) 0); [lia|reflexivity].
  - exfalso. eapply finite_not_endless; eauto.
Qed.

Lemma chain_split : forall h v cs w j, chain h v cs w -> exists u, chain h v (firstn j cs) u /\ chain h u (skipn j cs) w.
Proof.
  intros h v cs w j H. unfold chain in *. rewrite <- (firstn_skipn j cs) in H. rewrite !map_app in H.
  apply seg_app_inv in H; [|rewrite !map_length; reflexivity].
  destruct H as (u & H1 & H2). exists u. auto.
Qed.
Lemma chain_app : forall h v cs u ds w, chain h v cs u -> chain h u ds w -> chain h v (cs ++ ds) w.
Proof. intros. unfold chain. rewrite !map_app. eapply seg_app; eauto. Qed.
Lemma chain_app_inv : forall h v cs ds w, chain h v (cs ++ ds) w -> exists u, chain h v cs u /\ chain h u ds w.
Proof.
  intros h v cs ds w H. destruct (chain_split _ _ _ _ (length cs) H) as (u & H1 & H2).
  rewrite firstn_app, Nat.sub_diag, firstn_all, app_nil_r in H1.
  rewrite skipn_app, Nat.sub_diag, skipn_all in H2. eauto.
Qed.

Lemma map_snd_pmerge : forall L cs ds, map snd (pmerge (ltc L) cs ds) = pmerge L (map snd cs) (map snd ds).
Proof.
  intros L. apply (merge_ind (fun cs ds => map snd (pmerge (ltc L) cs ds) = pmerge L (map snd cs) (map snd ds))); intros.
  - reflexivity.
  - reflexivity.
  - rewrite pmerge_cons. cbn [map]. rewrite pmerge_cons.
    change (ltc L y x) with (L (snd y) (snd x)). destruct (L (snd y) (snd x)); cbn [map].
    + rewrite H. reflexivity.
    + rewrite H0. reflexivity.
Qed.

Section Step.
Variables (less : heap -> val -> val -> res bool) (L : val -> val -> bool).
Variables (Sp : nat -> Prop) (E : val -> Prop) (G : heap -> Prop).
Hypothesis Hless : forall h x y, G h -> E x -> E y -> less h x y = Ok (L x y).
Hypothesis Gstore : forall h a c, Sp a -> G h -> G (store a c h).

Lemma elts_ok_map : forall cs, elts_ok E cs <-> Forall E (map snd cs).
Proof. intros cs. unfold elts_ok. rewrite Forall_map. reflexivity. Qed.

Lemma sort_step_ok : forall f h seq cs w, chain h seq cs w -> NoDup (map fst cs) -> addrs_ok Sp (map fst cs) -> elts_ok E cs -> G h ->
  length cs < f ->
  exists h' p cs', sort_step less f h seq (Z.of_nat (length cs)) = Ok (h', w, p) /\ length h' = length h /\
    changed_only (map fst cs) h h' /\ G h' /\ chain h' p cs' Nil /\
    Permutation (map fst cs) (map fst cs') /\ map snd cs' = psort L f (map snd cs).
Proof.
  induction f; intros h seq cs w C ND Ad El Gh Hf; [lia|].
  cbn [sort_step].
  destruct cs as [|[p x] [|[q y] [|[r z] cs]]].
  - apply chain_nil_inv in C. subst. exists h, Nil, []. split; [reflexivity|]. split; [reflexivity|]. split; [apply changed_refl|]. split; [exact Gh|]. split; [apply chain_nil|]. split; reflexivity.
  - destruct (chain_cons_inv _ _ _ _ _ _ C) as (-> & d & Hp & C'). apply chain_nil_inv in C'. subst d.
    cbn [length Z.of_nat Pos.of_succ_nat Z.ltb Z.compare Pos.compare Pos.compare_cont Z.eqb Pos.eqb].
    rewrite (scdr_at _ _ _ _ Hp). cbn [bind]. rewrite (set_cdr_at _ _ _ _ _ Hp). cbn [bind].
    exists (store p (x, Nil) h), (Ptr p), [(p, x)]. split; [reflexivity|]. split; [apply store_len|].
    split; [apply changed_store; left; auto|]. split; [apply Gstore; auto; inversion Ad; auto|].
    split; [eapply chain_cons; [apply store_same; eapply some_lt; eauto|apply chain_nil]|]. auto.
  - destruct (chain_cons_inv _ _ _ _ _ _ C) as (-> & d & Hp & C').
    destruct (chain_cons_inv _ _ _ _ _ _ C') as (-> & d2 & Hq & C''). apply chain_nil_inv in C''. subst d2.
    change (Z.of_nat (length [(p, x); (q, y)])) with 2%Z. change (2 <? 2)%Z with false. change (2 =? 2)%Z with true. cbn iota.
    rewrite (scar_at _ _ _ _ Hp), (scdr_at _ _ _ _ Hp). cbn [bind].
    rewrite (scar_at _ _ _ _ Hq), (scdr_at _ _ _ _ Hq). cbn [bind].
    assert (Ex : E x) by (inversion El; auto). assert (Ey : E y) by (inversion El as [|? ? ? X]; inversion X; auto).
    rewrite (Hless h y x Gh Ey Ex). cbn [bind psort map snd].
    assert (Npq : p <> q). { inversion ND; subst. cbn in *. intuition. }
    assert (Sp1 : Sp p) by (inversion Ad; auto). assert (Sp2 : Sp q) by (inversion Ad as [|? ? ? X]; inversion X; auto).
    destruct (L y x).
    + rewrite (set_car_at _ _ _ _ y Hp). cbn [bind]. set (h1 := store p (y, Ptr q) h).
      assert (Hp1 : nth_error h1 p = Some (y, Ptr q)) by (apply store_same; eapply some_lt; eauto).
      assert (Hq1 : nth_error h1 q = Some (y, w)) by (unfold h1; rewrite store_other; auto).
      rewrite (scdr_at _ _ _ _ Hp1). cbn [bind]. rewrite (set_car_at _ _ _ _ x Hq1). cbn [bind].
      set (h2 := store q (x, w) h1).
      assert (Hp2 : nth_error h2 p = Some (y, Ptr q)) by (unfold h2; rewrite store_other; auto).
      assert (Hq2 : nth_error h2 q = Some (x, w)) by (apply store_same; eapply some_lt; eauto).
      rewrite (scdr_at _ _ _ _ Hp2). cbn [bind]. rewrite (set_cdr_at _ _ _ _ Nil Hq2). cbn [bind].
      exists (store q (x, Nil) h2), (Ptr p), [(p, y); (q, x)]. split; [reflexivity|].
      split; [unfold h2, h1; rewrite !store_len; auto|].
      split. { intros a La Na. cbn in Na. unfold h2, h1. rewrite !store_other; auto; intro; subst; tauto. }
      split; [repeat apply Gstore; auto|].
      split. { eapply chain_cons; [rewrite store_other; eauto|]. eapply chain_cons; [apply store_same; eapply some_lt; eauto|apply chain_nil]. }
      auto.
    + cbn [bind]. rewrite (scdr_at _ _ _ _ Hp). cbn [bind]. rewrite (set_cdr_at _ _ _ _ Nil Hq). cbn [bind].
      exists (store q (y, Nil) h), (Ptr p), [(p, x); (q, y)]. split; [reflexivity|]. split; [apply store_len|].
      split; [apply changed_store; cbn; auto|]. split; [apply Gstore; auto|].
      split. { eapply chain_cons; [rewrite store_other; eauto|]. eapply chain_cons; [apply store_same; eapply some_lt; eauto|apply chain_nil]. }
      auto.
  - set (l := (p, x) :: (q, y) :: (r, z) :: cs) in *.
    assert (Hn : (3 <= length l)%nat) by (subst l; cbn [length]; lia).
    destruct (Z.ltb_spec 2 (Z.of_nat (length l))) as [_|X]; [|lia].
    set (j := (length l / 2)%nat).
    assert (Hj : (1 <= j < length l)%nat).
    { subst j. split; [apply (Nat.div_le_lower_bound _ 2 1); lia|apply Nat.div_lt; lia]. }
    replace (Z.of_nat (length l) / 2)%Z with (Z.of_nat j) by (unfold j; rewrite Nat2Z.inj_div; reflexivity).
    destruct (chain_split _ _ _ _ j C) as (u & C1 & C2).
    assert (NDs : NoDup (map fst (firstn j l) ++ map fst (skipn j l))) by (rewrite <- map_app, firstn_skipn; auto).
    assert (Ads : addrs_ok Sp (map fst (firstn j l) ++ map fst (skipn j l))) by (rewrite <- map_app, firstn_skipn; auto).
    assert (Els : elts_ok E (firstn j l) /\ elts_ok E (skipn j l)) by (apply Forall_app; rewrite firstn_skipn; auto).
    destruct Els as [El1 El2].
    assert (L1 : length (firstn j l) = j) by (apply firstn_length_le; lia).
    assert (L2 : length (skipn j l) = (length l - j)%nat) by apply skipn_length.
    assert (Ad1 : addrs_ok Sp (map fst (firstn j l))) by (apply Forall_app in Ads; tauto).
    assert (Ad2 : addrs_ok Sp (map fst (skipn j l))) by (apply Forall_app in Ads; tauto).
    assert (Disj : forall a, In a (map fst (firstn j l)) -> In a (map fst (skipn j l)) -> False).
    { intros a Ha Hb. clear - NDs Ha Hb. induction (map fst (firstn j l)); [destruct Ha|]. cbn in NDs. inversion NDs; subst.
      destruct Ha as [->|Ha]; auto. apply H1. apply in_or_app; auto. }
    assert (ND1 : NoDup (map fst (firstn j l))) by (eapply nodup_app_l; eauto).
    assert (ND2 : NoDup (map fst (skipn j l))).
    { clear - NDs. induction (map fst (firstn j l)); cbn in *; auto. inversion NDs; auto. }
    destruct (IHf h seq (firstn j l) u) as (h1 & pa & ca & E1 & Len1 & Ch1 & G1 & Cha & Pa & Va); auto; [lia|].
    rewrite L1 in E1. rewrite E1. cbn [bind].
    assert (C2' : chain h1 u (skipn j l) w) by (eapply chain_changed; [exact C2|exact Ch1|]; intros a Ha Hb; eapply Disj; eauto).
    destruct (IHf h1 u (skipn j l) w) as (h2 & pb & cb & E2 & Len2 & Ch2 & G2 & Chb & Pb & Vb); auto; [lia|].
    rewrite L2 in E2. replace (Z.of_nat (length l) - Z.of_nat j)%Z with (Z.of_nat (length l - j)) by lia. rewrite E2. cbn [bind].
    assert (Pab : Permutation (map fst l) (map fst ca ++ map fst cb)).
    { rewrite <- (firstn_skipn j l) at 1. rewrite map_app. apply Permutation_app; auto. }
    assert (Cha' : chain h2 pa ca Nil).
    { eapply chain_changed; [exact Cha|exact Ch2|]. intros a Ha Hb. apply (Disj a); auto. eapply Permutation_in; [symmetry; exact Pa|auto]. }
    destruct (mergex_ok less (fun v => v) L Sp E G Hless Gstore h2 pa ca pb cb) as (h3 & v & E3 & Len3 & Ch3 & G3 & Ch3'); auto.
    + eapply Permutation_NoDup; [exact Pab|auto].
    + unfold addrs_ok in *. eapply Permutation_Forall; [exact Pab|auto].
    + apply elts_ok_map. rewrite Va. apply elts_ok_map in El1. eapply Permutation_Forall; [apply psort_perm|auto].
    + apply elts_ok_map. rewrite Vb. apply elts_ok_map in El2. eapply Permutation_Forall; [apply psort_perm|auto].
    + rewrite E3. cbn [bind]. exists h3, v, (pmerge (ltc L) ca cb). split; [reflexivity|]. split; [congruence|].
      split. { intros a La Na. rewrite Ch3, Ch2, Ch1; auto; try lia; intro Hin; apply Na.
               - rewrite <- (firstn_skipn j l), map_app. apply in_or_app; auto.
               - rewrite <- (firstn_skipn j l), map_app. apply in_or_app; auto.
               - eapply Permutation_in; [symmetry; exact Pab|auto]. }
      split; [exact G3|]. split; [exact Ch3'|]. split.
      * rewrite Pab, <- map_app. apply Permutation_map. apply pmerge_perm.
      * rewrite map_snd_pmerge, Va, Vb. subst l. set (l := (p, x) :: (q, y) :: (r, z) :: cs) in *.
        change (psort L (S f) (map snd l)) with (let j := (length (map snd l) / 2)%nat in pmerge L (psort L f (firstn j (map snd l))) (psort L f (skipn j (map snd l)))).
        cbv zeta. rewrite map_length. fold j. rewrite firstn_map, skipn_map. reflexivity.
Qed.

Lemma istable_sortx_id_ok : forall h v cs, closed h -> chain h v cs Nil -> addrs_ok Sp (map fst cs) -> elts_ok E cs -> G h ->
  exists h' p cs', istable_sortx_id less h v = Ok (h', p) /\ length h' = length h /\
    changed_only (map fst cs) h h' /\ G h' /\ chain h' p cs' Nil /\
    Permutation (map fst cs) (map fst cs') /\ map snd cs' = psort L (S (length cs)) (map snd cs).
Proof.
  intros h v cs Cl C Ad El Gh. unfold istable_sortx_id.
  destruct cs as [|[p x] cs].
  - apply chain_nil_inv in C. subst v. cbn [nullp]. exists h, Nil, []. split; [reflexivity|]. split; [reflexivity|]. split; [apply changed_refl|]. split; [exact Gh|]. split; [apply chain_nil|]. split; reflexivity.
  - destruct (chain_cons_inv _ _ _ _ _ _ C) as (-> & _). cbn [nullp pairp].
    rewrite (proper_length _ _ _ _ Cl C). cbn [bind]. rewrite map_length, Nat2Z.id.
    destruct (sort_step_ok (S (length ((p, x) :: cs))) h (Ptr p) ((p, x) :: cs) Nil) as (h' & pp & cs' & E1 & R); auto.
    { eapply seg_nodup; [exact C|reflexivity]. }
    rewrite E1. cbn [bind]. exists h', pp, cs'. split; [reflexivity|]. exact R.
Qed.
End Step.
