(** merge! and the recursive step of %stable-sort! in the heap. *)
From Coq Require Import List Bool ZArith Permutation Lia.
From Verif Require Import Outcome ListModel ListSpec ListProofs ListProofs2 ListProofs3 ListProofs4 SortModel SortSpec SortProofs2.
Import ListNotations.
Ltac Zify.zify_post_hook ::= idtac.

Definition cells := list (nat * val).
Definition chain (h : heap) (v : val) (cs : cells) (w : val) : Prop := seg h v (map fst cs) (map snd cs) w.
Lemma chain_cons_inv : forall h v p x cs w, chain h v ((p, x) :: cs) w ->
  v = Ptr p /\ exists d, nth_error h p = Some (x, d) /\ chain h d cs w.
Proof. intros h v p x cs w H. unfold chain in H. cbn in H. inversion H; subst. split; auto. eexists; eauto. Qed.
Lemma chain_cons : forall h p x d cs w, nth_error h p = Some (x, d) -> chain h d cs w -> chain h (Ptr p) ((p, x) :: cs) w.
Proof. intros. unfold chain. cbn. econstructor; eauto. Qed.
Lemma chain_nil_inv : forall h v w, chain h v [] w -> v = w.
Proof. intros h v w H. unfold chain in H. cbn in H. inversion H; auto. Qed.
Lemma chain_nil : forall h v, chain h v [] v.
Proof. intros. constructor. Qed.
Lemma chain_store : forall h v cs w a c, chain h v cs w -> ~ In a (map fst cs) -> chain (store a c h) v cs w.
Proof. intros. apply seg_store; auto. Qed.
Lemma chain_changed : forall h h' B v cs w, chain h v cs w -> changed_only B h h' -> (forall a, In a (map fst cs) -> ~ In a B) -> chain h' v cs w.
Proof. intros. eapply seg_changed; eauto. Qed.
Lemma scar_at : forall h a x d, nth_error h a = Some (x, d) -> scar h (Ptr a) = Ok x.
Proof. intros. unfold scar. cbn [pairp]. eapply car_at; eauto. Qed.
Lemma scdr_at : forall h a x d, nth_error h a = Some (x, d) -> scdr h (Ptr a) = Ok d.
Proof. intros. unfold scdr. cbn [pairp]. eapply cdr_at; eauto. Qed.
Lemma set_car_at : forall h a x d w, nth_error h a = Some (x, d) -> set_car h (Ptr a) w = Ok (store a (w, d) h).
Proof. intros h a x d w E. unfold set_car. rewrite E. reflexivity. Qed.
Lemma some_lt : forall (h : heap) a c, nth_error h a = Some c -> a < length h.
Proof. intros. apply nth_error_Some. congruence. Qed.
Lemma chain_bound : forall h v cs w a, chain h v cs w -> In a (map fst cs) -> a < length h.
Proof. intros h v cs w a H Ha. pose proof (seg_bounds _ _ _ _ _ H) as F. rewrite Forall_forall in F. auto. Qed.

Section Heap.
Variables (less : heap -> val -> val -> res bool) (key : val -> val) (L : val -> val -> bool).
Variables (Sp : nat -> Prop) (E : val -> Prop) (G : heap -> Prop).
Hypothesis Hless : forall h x y, G h -> E x -> E y -> less h (key x) (key y) = Ok (L x y).
Hypothesis Gstore : forall h a c, Sp a -> G h -> G (store a c h).
Definition ltc (p q : nat * val) : bool := L (snd p) (snd q).
Definition addrs_ok (l : list nat) : Prop := Forall Sp l.
Definition elts_ok (cs : cells) : Prop := Forall (fun c => E (snd c)) cs.

Lemma mergex_loop_ok : forall f h ra cr dr pa x ar pb y br,
  nth_error h ra = Some (cr, dr) -> chain h (Ptr pa) ((pa, x) :: ar) Nil -> chain h (Ptr pb) ((pb, y) :: br) Nil ->
  NoDup (ra :: map fst ((pa, x) :: ar) ++ map fst ((pb, y) :: br)) ->
  addrs_ok (ra :: map fst ((pa, x) :: ar) ++ map fst ((pb, y) :: br)) ->
  elts_ok ((pa, x) :: ar) -> elts_ok ((pb, y) :: br) -> G h ->
  length ar + length br < f ->
  exists h' v, mergex_loop less key f h (Ptr ra) (Ptr pa) (key x) (Ptr pb) (key y) = Ok h' /\ length h' = length h /\
    changed_only (ra :: map fst ((pa, x) :: ar) ++ map fst ((pb, y) :: br)) h h' /\ G h' /\
    nth_error h' ra = Some (cr, v) /\ chain h' v (pmerge ltc ((pa, x) :: ar) ((pb, y) :: br)) Nil.
Proof.
  induction f; intros h ra cr dr pa x ar pb y br Hr Ca Cb ND Ad Ea Eb Gh Hf; [lia|].
  cbn [mergex_loop]. cbn [map fst app] in *.
  pose proof (Forall_inv Ea) as Ex. pose proof (Forall_inv Eb) as Ey. cbn [snd] in Ex, Ey.
  rewrite (Hless h y x) by auto. cbn [bind]. rewrite pmerge_cons.
  change (ltc (pb, y) (pa, x)) with (L y x).
  destruct (chain_cons_inv _ _ _ _ _ _ Ca) as (_ & da & Ha & Ca').
  destruct (chain_cons_inv _ _ _ _ _ _ Cb) as (_ & db & Hb & Cb').
  inversion ND as [|? ? N1 N2]; subst. inversion N2 as [|? ? N3 N4]; subst.
  assert (Nra : ra <> pa /\ ra <> pb /\ ~ In ra (map fst ar) /\ ~ In ra (map fst br)).
  { cbn in N1. rewrite in_app_iff in N1. cbn in N1. repeat split; intro; subst; tauto. }
  assert (Npa : pa <> pb /\ ~ In pa (map fst ar) /\ ~ In pa (map fst br)).
  { rewrite in_app_iff in N3. cbn in N3. repeat split; intro; subst; tauto. }
  assert (Npb : ~ In pb (map fst ar) /\ ~ In pb (map fst br)).
  { apply NoDup_remove_2 in N4. rewrite in_app_iff in N4. tauto. }
  assert (Spra : Sp ra) by (inversion Ad; auto).
  assert (Sppa : Sp pa) by (inversion Ad as [|? ? ? X]; inversion X; auto).
  assert (Sppb : Sp pb).
  { unfold addrs_ok in Ad. rewrite Forall_forall in Ad. apply Ad. right; right. apply in_or_app. right. left; auto. }
  destruct (L y x) eqn:EL; cbn [bind].
  - rewrite (set_cdr_at _ _ _ _ (Ptr pb) Hr). cbn [bind].
    set (h1 := store ra (cr, Ptr pb) h).
    assert (G1 : G h1) by (apply Gstore; auto).
    assert (Hb1 : nth_error h1 pb = Some (y, db)) by (unfold h1; rewrite store_other by tauto; auto).
    assert (Hr1 : nth_error h1 ra = Some (cr, Ptr pb)) by (unfold h1; apply store_same; eapply some_lt; eauto).
    rewrite (scdr_at _ _ _ _ Hb1). cbn [bind].
    destruct br as [|[pb2 y2] br].
    + apply chain_nil_inv in Cb'. subst db. cbn [nullp].
      rewrite (set_cdr_at _ _ _ _ (Ptr pa) Hb1).
      exists (store pb (y, Ptr pa) h1), (Ptr pb). split; [reflexivity|]. split; [unfold h1; rewrite !store_len; auto|].
      split. { intros a La Na. unfold h1. rewrite !store_other; auto; intro; subst; apply Na; cbn; auto.
               right; right. apply in_or_app. right; left; auto. }
      split; [apply Gstore; auto|]. split; [rewrite store_other by (intro; subst; tauto); auto|].
      eapply chain_cons; [apply store_same; eapply some_lt; eauto|].
      rewrite pmerge_nil_r. apply chain_store; [apply chain_store; auto|]; cbn; intuition congruence.
    + destruct (chain_cons_inv _ _ _ _ _ _ Cb') as (-> & d2 & H2 & C2). cbn [nullp].
      assert (H21 : nth_error h1 pb2 = Some (y2, d2)).
      { unfold h1. rewrite store_other; auto. intro; subst. cbn in Nra. tauto. }
      rewrite (scar_at _ _ _ _ H21). cbn [bind]. cbn [length] in Hf.
      destruct (IHf h1 pb y (Ptr pb2) pa x ar pb2 y2 br) as (h' & v & E1 & E2 & E3 & E4 & E5 & E6); auto; try lia.
      * apply chain_store; auto. cbn. intuition congruence.
      * apply chain_store; auto. cbn in *. intuition congruence.
      * cbn [map fst app]. constructor; [|constructor].
        -- cbn. rewrite in_app_iff. cbn in *. intuition congruence.
        -- rewrite in_app_iff in *. cbn in *. intuition congruence.
        -- change (map fst ar ++ pb :: pb2 :: map fst br) with (map fst ar ++ [pb] ++ (pb2 :: map fst br)) in N4.
           apply NoDup_remove_1 in N4. exact N4.
      * unfold addrs_ok in *. rewrite Forall_forall in *. intros a Hain. apply Ad. cbn [map fst] in *.
        cbn in Hain |- *. rewrite in_app_iff in *. cbn in Hain |- *. tauto.
      * inversion Eb; auto.
      * exists h', (Ptr pb). cbn [map fst app] in E3. split; [exact E1|]. split; [rewrite E2; unfold h1; apply store_len|].
        split. { intros a La Na. rewrite E3.
                 - unfold h1. apply store_other. intro; subst. apply Na. left; auto.
                 - unfold h1. rewrite store_len. auto.
                 - intro Hin. apply Na. cbn in Hin |- *. rewrite in_app_iff in *. cbn in Hin |- *. tauto. }
        split; [exact E4|].
        split. { rewrite E3; [exact Hr1|unfold h1; rewrite store_len; eapply some_lt; eauto|].
                 cbn. rewrite in_app_iff. cbn in *. intuition congruence. }
        eapply chain_cons; eauto.
  - rewrite (set_cdr_at _ _ _ _ (Ptr pa) Hr). cbn [bind].
    set (h1 := store ra (cr, Ptr pa) h).
    assert (G1 : G h1) by (apply Gstore; auto).
    assert (Ha1 : nth_error h1 pa = Some (x, da)) by (unfold h1; rewrite store_other by tauto; auto).
    assert (Hr1 : nth_error h1 ra = Some (cr, Ptr pa)) by (unfold h1; apply store_same; eapply some_lt; eauto).
    rewrite (scdr_at _ _ _ _ Ha1). cbn [bind].
    destruct ar as [|[pa2 x2] ar].
    + apply chain_nil_inv in Ca'. subst da. cbn [nullp].
      rewrite (set_cdr_at _ _ _ _ (Ptr pb) Ha1).
      exists (store pa (x, Ptr pb) h1), (Ptr pa). split; [reflexivity|]. split; [unfold h1; rewrite !store_len; auto|].
      split. { intros a La Na. unfold h1. rewrite !store_other; auto; intro; subst; apply Na; cbn; auto. }
      split; [apply Gstore; auto|]. split; [rewrite store_other by (intro; subst; tauto); auto|].
      eapply chain_cons; [apply store_same; eapply some_lt; eauto|].
      rewrite pmerge_nil_l. apply chain_store; [apply chain_store; auto|]; cbn; intuition congruence.
    + destruct (chain_cons_inv _ _ _ _ _ _ Ca') as (-> & d2 & H2 & C2). cbn [nullp].
      assert (H21 : nth_error h1 pa2 = Some (x2, d2)).
      { unfold h1. rewrite store_other; auto. intro; subst. cbn in Nra. tauto. }
      rewrite (scar_at _ _ _ _ H21). cbn [bind]. cbn [length] in Hf.
      destruct (IHf h1 pa x (Ptr pa2) pa2 x2 ar pb y br) as (h' & v & E1 & E2 & E3 & E4 & E5 & E6); auto; try lia.
      * apply chain_store; auto. cbn in *. intuition congruence.
      * apply chain_store; auto. cbn in *. intuition congruence.
      * unfold addrs_ok in *. rewrite Forall_forall in *. intros a Hain. apply Ad. right. exact Hain.
      * inversion Ea; auto.
      * exists h', (Ptr pa). cbn [map fst app] in E3. split; [exact E1|]. split; [rewrite E2; unfold h1; apply store_len|].
        split. { intros a La Na. rewrite E3.
                 - unfold h1. apply store_other. intro; subst. apply Na. left; auto.
                 - unfold h1. rewrite store_len. auto.
                 - intro Hin. apply Na. right. exact Hin. }
        split; [exact E4|].
        split. { rewrite E3; [exact Hr1|unfold h1; rewrite store_len; eapply some_lt; eauto|].
                 cbn. rewrite in_app_iff. cbn in *. intuition congruence. }
        eapply chain_cons; eauto.
Qed.

Lemma nodup_cells_short : forall h (l : list nat), NoDup l -> (forall a, In a l -> a < length (h : heap)) -> length l <= length h.
Proof. intros h l N B. apply bounded_nodup_len; auto. rewrite Forall_forall. auto. Qed.

Lemma mergex_ok : forall h va cs vb ds, chain h va cs Nil -> chain h vb ds Nil ->
  NoDup (map fst cs ++ map fst ds) -> addrs_ok (map fst cs ++ map fst ds) -> elts_ok cs -> elts_ok ds -> G h ->
  exists h' v, mergex less key h va vb = Ok (h', v) /\ length h' = length h /\
    changed_only (map fst cs ++ map fst ds) h h' /\ G h' /\ chain h' v (pmerge ltc cs ds) Nil.
Proof.
  intros h va cs vb ds Ca Cb ND Ad Ea Eb Gh. unfold mergex.
  destruct cs as [|[pa x] ar].
  { apply chain_nil_inv in Ca. subst va. cbn [nullp]. exists h, vb. rewrite pmerge_nil_l.
    repeat (split; [auto using changed_refl|]). auto. }
  destruct (chain_cons_inv _ _ _ _ _ _ Ca) as (-> & da & Ha & Ca'). cbn [nullp].
  destruct ds as [|[pb y] br].
  { apply chain_nil_inv in Cb. subst vb. cbn [nullp]. exists h, (Ptr pa). rewrite pmerge_nil_r.
    repeat (split; [auto using changed_refl|]). auto. }
  destruct (chain_cons_inv _ _ _ _ _ _ Cb) as (-> & db & Hb & Cb'). cbn [nullp].
  rewrite (scar_at _ _ _ _ Ha), (scar_at _ _ _ _ Hb). cbn [bind].
  pose proof (Forall_inv Ea) as Ex. pose proof (Forall_inv Eb) as Ey. cbn [snd] in Ex, Ey.
  rewrite (Hless h y x) by auto. cbn [bind]. rewrite pmerge_cons.
  change (ltc (pb, y) (pa, x)) with (L y x).
  assert (Len : length ((pa, x) :: ar) + length ((pb, y) :: br) <= length h).
  { rewrite <- (map_length fst), <- (map_length fst ((pb, y) :: br)), <- app_length. apply nodup_cells_short; auto.
    intros a Hain. apply in_app_or in Hain. destruct Hain as [Hain|Hain]; [exact (chain_bound _ _ _ _ _ Ca Hain)|exact (chain_bound _ _ _ _ _ Cb Hain)]. }
  cbn [length] in Len. cbn [map fst app] in ND, Ad.
  inversion ND as [|? ? N3 N4]; subst.
  assert (Npa : pa <> pb /\ ~ In pa (map fst ar) /\ ~ In pa (map fst br)).
  { rewrite in_app_iff in N3. cbn in N3. repeat split; intro; subst; tauto. }
  assert (Npb : ~ In pb (map fst ar) /\ ~ In pb (map fst br)).
  { apply NoDup_remove_2 in N4. rewrite in_app_iff in N4. tauto. }
  assert (Sppa : Sp pa) by (inversion Ad; auto).
  assert (Sppb : Sp pb).
  { unfold addrs_ok in Ad. rewrite Forall_forall in Ad. apply Ad. right. apply in_or_app. right. left; auto. }
  destruct (L y x) eqn:EL; cbn [bind].
  - rewrite (scdr_at _ _ _ _ Hb). cbn [bind].
    destruct br as [|[pb2 y2] br].
    + apply chain_nil_inv in Cb'. subst db. cbn [nullp]. rewrite (set_cdr_at _ _ _ _ (Ptr pa) Hb). cbn [bind].
      exists (store pb (y, Ptr pa) h), (Ptr pb). split; [reflexivity|]. split; [apply store_len|].
      split; [apply changed_store; cbn; right; apply in_or_app; right; left; auto|].
      split; [apply Gstore; auto|]. eapply chain_cons; [apply store_same; eapply some_lt; eauto|].
      rewrite pmerge_nil_r. apply chain_store; auto. cbn. intuition congruence.
    + destruct (chain_cons_inv _ _ _ _ _ _ Cb') as (-> & d2 & H2 & C2). cbn [nullp].
      rewrite (scar_at _ _ _ _ H2). cbn [bind]. cbn [length] in Len.
      destruct (mergex_loop_ok (S (length h)) h pb y (Ptr pb2) pa x ar pb2 y2 br) as (h' & v & E1 & E2 & E3 & E4 & E5 & E6); auto; try lia.
      * cbn [map fst app]. constructor; [|constructor].
        -- cbn. rewrite in_app_iff. cbn in *. intuition congruence.
        -- rewrite in_app_iff in *. cbn in *. intuition congruence.
        -- cbn [map fst] in N4. apply NoDup_remove_1 in N4. exact N4.
      * unfold addrs_ok in *. rewrite Forall_forall in *. intros a Hain. apply Ad. cbn [map fst] in *.
        cbn in Hain |- *. rewrite in_app_iff in *. cbn in Hain |- *. tauto.
      * inversion Eb; auto.
      * rewrite E1. cbn [bind]. exists h', (Ptr pb). split; [reflexivity|]. split; [exact E2|].
        split. { eapply changed_incl; [|exact E3]. intros a Hain. cbn in Hain |- *. rewrite in_app_iff in *. cbn in Hain |- *. tauto. }
        split; [exact E4|]. eapply chain_cons; eauto.
  - rewrite (scdr_at _ _ _ _ Ha). cbn [bind].
    destruct ar as [|[pa2 x2] ar].
    + apply chain_nil_inv in Ca'. subst da. cbn [nullp]. rewrite (set_cdr_at _ _ _ _ (Ptr pb) Ha). cbn [bind].
      exists (store pa (x, Ptr pb) h), (Ptr pa). split; [reflexivity|]. split; [apply store_len|].
      split; [apply changed_store; cbn; left; auto|].
      split; [apply Gstore; auto|]. eapply chain_cons; [apply store_same; eapply some_lt; eauto|].
      rewrite pmerge_nil_l. apply chain_store; auto; cbn in *; intuition congruence.
    + destruct (chain_cons_inv _ _ _ _ _ _ Ca') as (-> & d2 & H2 & C2). cbn [nullp].
      rewrite (scar_at _ _ _ _ H2). cbn [bind]. cbn [length] in Len.
      destruct (mergex_loop_ok (S (length h)) h pa x (Ptr pa2) pa2 x2 ar pb y br) as (h' & v & E1 & E2 & E3 & E4 & E5 & E6); auto; try lia.
      * inversion Ea; auto.
      * rewrite E1. cbn [bind]. exists h', (Ptr pa). split; [reflexivity|]. split; [exact E2|].
        split; [exact E3|].
        split; [exact E4|]. eapply chain_cons; eauto.
Qed.
End Heap.
