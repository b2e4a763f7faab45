(** %stable-sort! with a key procedure, the head exchange of stable-sort!, vectors, and
    the list interface of the C sorter. *)
From Coq Require Import List Bool ZArith Permutation Lia.
From Verif Require Import Outcome ListModel ListSpec ListProofs ListProofs2 ListProofs3 ListProofs4 SortModel SortSpec SortProofs SortProofs2 SortProofs3 SortProofs4.
Import ListNotations.
Ltac Zify.zify_post_hook ::= idtac.

(** ** sorting commutes with a map *)
Lemma pmerge_map : forall {A B} (f : A -> B) (lt : A -> A -> bool) (lt' : B -> B -> bool) xs ys,
  (forall x y, In x xs -> In y ys -> lt y x = lt' (f y) (f x)) ->
  map f (pmerge lt xs ys) = pmerge lt' (map f xs) (map f ys).
Proof.
  intros A B f lt lt'. apply (merge_ind (fun xs ys => (forall x y, In x xs -> In y ys -> lt y x = lt' (f y) (f x)) -> map f (pmerge lt xs ys) = pmerge lt' (map f xs) (map f ys))); intros.
  - reflexivity.
  - reflexivity.
  - rewrite pmerge_cons. cbn [map]. rewrite pmerge_cons. rewrite <- (H1 x y) by (left; auto).
    destruct (lt y x); cbn [map].
    + rewrite H; auto. intros u v Hu Hv. apply H1; auto. right; auto.
    + rewrite H0; auto. intros u v Hu Hv. apply H1; auto. right; auto.
Qed.
Lemma psort_map : forall {A B} (f : A -> B) (lt : A -> A -> bool) (lt' : B -> B -> bool) n xs,
  (forall x y, In x xs -> In y xs -> lt x y = lt' (f x) (f y)) ->
  map f (psort lt n xs) = psort lt' n (map f xs).
Proof.
  induction n; intros xs H; [reflexivity|]. cbn [psort].
  destruct xs as [|x [|y [|z r]]]; try reflexivity.
  - cbn [map]. rewrite (H y x) by (cbn; auto). destruct (lt' (f y) (f x)); reflexivity.
  - set (l := x :: y :: z :: r) in *. set (j := (length l / 2)%nat).
    transitivity (pmerge lt' (psort lt' n (firstn j (map f l))) (psort lt' n (skipn j (map f l)))).
    2:{ unfold j. rewrite <- (map_length f l). reflexivity. }
    rewrite firstn_map, skipn_map.
    assert (I1 : forall u, In u (firstn j l) -> In u l) by (intros u Hu; rewrite <- (firstn_skipn j l); apply in_or_app; auto).
    assert (I2 : forall u, In u (skipn j l) -> In u l) by (intros u Hu; rewrite <- (firstn_skipn j l); apply in_or_app; auto).
    rewrite <- (IHn (firstn j l)), <- (IHn (skipn j l)); auto.
    apply pmerge_map. intros u v Hu Hv.
    apply H; [apply I2|apply I1]; (eapply Permutation_in; [symmetry; apply psort_perm|eassumption]).
Qed.
Lemma swo_key : forall {A K} (less : K -> K -> bool) (key : A -> K), strict_weak_order less ->
  strict_weak_order (fun x y => less (key x) (key y)).
Proof. intros A K less key [H1 H2 H3]. constructor; intros; eauto. Qed.

(** ** keys *)
Lemma add_keys_ok : forall key f h v cs n0, chain h v cs Nil -> NoDup (map fst cs) -> length cs < f -> closed h ->
  (forall c, In c cs -> fst c < n0) -> n0 <= length h -> (forall c, In c cs -> in_heap h (key (snd c))) ->
  exists h' ps, add_keys key f h v = Ok h' /\ closed h' /\ length h <= length h' /\ changed_only (map fst cs) h h' /\
    length ps = length cs /\ chain h' v (combine (map fst cs) ps) Nil /\
    Forall2 (fun c p => exists a, p = Ptr a /\ n0 <= a /\ nth_error h' a = Some (snd c, key (snd c))) cs ps.
Proof.
  induction f; intros h v cs n0 C ND Hf Cl Hn Hl Hk; [lia|]. cbn [add_keys].
  destruct cs as [|[p x] cs].
  - apply chain_nil_inv in C. subst v. cbn [nullp]. exists h, [].
    split; [reflexivity|]. split; [auto|]. split; [lia|]. split; [apply changed_refl|]. split; [reflexivity|]. split; [apply chain_nil|constructor].
  - destruct (chain_cons_inv _ _ _ _ _ _ C) as (-> & d & Hp & C'). cbn [nullp].
    rewrite (scar_at _ _ _ _ Hp). cbn [bind cons_].
    assert (Lp : p < length h) by (eapply some_lt; eauto).
    destruct (closed_cell _ _ Cl Lp) as (x1 & d1 & X & Ix & Id). rewrite Hp in X. injection X as <- <-.
    set (h1 := h ++ [(x, key x)]).
    assert (Hp1 : nth_error h1 p = Some (x, d)) by (unfold h1; rewrite nth_error_app1; auto).
    rewrite (set_car_at _ _ _ _ (Ptr (length h)) Hp1). cbn [bind].
    set (h2 := store p (Ptr (length h), d) h1).
    assert (Hp2 : nth_error h2 p = Some (Ptr (length h), d)) by (apply store_same; unfold h1; rewrite app_length; lia).
    rewrite (scdr_at _ _ _ _ Hp2). cbn [bind].
    assert (L2 : length h2 = S (length h)) by (unfold h2, h1; rewrite store_len, app_length; cbn; lia).
    inversion ND as [|? ? N1 N2]; subst.
    assert (Ik : in_heap h (key x)) by (apply (Hk (p, x)); left; auto).
    assert (Cl2 : closed h2).
    { unfold h2. apply closed_store.
      - unfold h1. apply closed_cons; auto. destruct (key x); cbn in *; auto. rewrite app_length. lia.
      - cbn. unfold h1. rewrite app_length. cbn. lia.
      - destruct d; cbn in *; auto. unfold h1. rewrite app_length. lia. }
    destruct (IHf h2 d cs n0) as (h' & ps & E1 & Cl' & L' & Ch & Lps & C2 & F2); auto.
    + unfold h2. apply chain_store; auto. eapply seg_preserved; [exact C'|]. apply preserved_cons.
    + cbn in Hf. lia.
    + intros c Hc. apply Hn. right; auto.
    + lia.
    + intros c Hc. specialize (Hk c (or_intror Hc)). destruct (key (snd c)); cbn in *; auto. lia.
    + assert (Hlp : ~ In (length h) (map fst cs)).
      { intro X. apply in_map_iff in X. destruct X as (c & X1 & X2). specialize (Hn c (or_intror X2)). lia. }
      exists h', (Ptr (length h) :: ps). split; [exact E1|]. split; [auto|]. split; [lia|].
      split. { intros a La Na. cbn in Na. rewrite Ch by (auto; lia). unfold h2. rewrite store_other by auto. unfold h1. rewrite nth_error_app1; auto. }
      split; [cbn; auto|]. split.
      * cbn [map fst combine]. eapply chain_cons; [|exact C2]. rewrite Ch by (auto; lia). exact Hp2.
      * constructor; auto. exists (length h). split; [auto|]. split; [auto|]. rewrite Ch by (auto; lia).
        unfold h2. rewrite store_other by lia. unfold h1. rewrite nth_error_app2, Nat.sub_diag by lia. reflexivity.
Qed.

Definition elt_in (h1 : heap) (v : val) : val :=
  match v with Ptr a => match nth_error h1 a with Some (x, _) => x | None => Nil end | _ => Nil end.
Definition key_in (h1 : heap) (v : val) : val :=
  match v with Ptr a => match nth_error h1 a with Some (_, k) => k | None => Nil end | _ => Nil end.
(** [v] is an (element . key) pair *)
Definition kpair (h1 : heap) (key : val -> val) (n0 : nat) (v : val) : Prop :=
  exists a x, v = Ptr a /\ n0 <= a /\ nth_error h1 a = Some (x, key x).

Lemma strip_keys_ok : forall key h1 n0 f h v cs, chain h v cs Nil -> NoDup (map fst cs) -> length cs < f ->
  (forall c, In c cs -> fst c < n0) -> Forall (fun c => kpair h1 key n0 (snd c)) cs ->
  (forall a, n0 <= a -> nth_error h a = nth_error h1 a) ->
  exists h', strip_keys f h v = Ok h' /\ length h' = length h /\ changed_only (map fst cs) h h' /\
    chain h' v (map (fun c => (fst c, elt_in h1 (snd c))) cs) Nil.
Proof.
  induction f; intros h v cs C ND Hf Hn F G; [lia|]. cbn [strip_keys].
  destruct cs as [|[p v0] cs].
  - apply chain_nil_inv in C. subst v. cbn [nullp]. exists h. split; [reflexivity|]. split; [auto|]. split; [apply changed_refl|]. apply chain_nil.
  - destruct (chain_cons_inv _ _ _ _ _ _ C) as (-> & d & Hp & C'). cbn [nullp].
    inversion F as [|? ? (a & x & Ev & La & Ha) F']; subst. cbn [snd] in Ev. subst v0.
    rewrite (scar_at _ _ _ _ Hp). cbn [bind].
    assert (Hh : nth_error h a = Some (x, key x)) by (rewrite G; auto).
    rewrite (scar_at _ _ _ _ Hh). cbn [bind]. rewrite (set_car_at _ _ _ _ x Hp). cbn [bind].
    set (h2 := store p (x, d) h).
    assert (Hp2 : nth_error h2 p = Some (x, d)) by (apply store_same; eapply some_lt; eauto).
    rewrite (scdr_at _ _ _ _ Hp2). cbn [bind]. inversion ND as [|? ? N1 N2]; subst.
    assert (Lp : p < n0) by (apply (Hn (p, Ptr a)); left; auto).
    destruct (IHf h2 d cs) as (h' & E1 & L' & Ch & C2); auto.
    + apply chain_store; auto.
    + cbn in Hf; lia.
    + intros c Hc. apply Hn. right; auto.
    + intros b Hb. unfold h2. rewrite store_other by lia. auto.
    + exists h'. split; [exact E1|]. split; [rewrite L'; apply store_len|].
      split. { intros b Lb Nb. cbn in Nb. rewrite Ch; [|unfold h2; rewrite store_len; auto|auto]. unfold h2. apply store_other. auto. }
      cbn [map fst snd elt_in]. rewrite Ha. eapply chain_cons; [|exact C2].
      rewrite Ch; [exact Hp2|unfold h2; rewrite store_len; eapply some_lt; eauto|auto].
Qed.

Lemma combine_fst : forall {A B} (l : list A) (l' : list B), length l' = length l -> map fst (combine l l') = l.
Proof. induction l; destruct l'; cbn; intros; try lia; auto. f_equal. apply IHl. lia. Qed.
Lemma combine_snd : forall {A B} (l : list A) (l' : list B), length l' = length l -> map snd (combine l l') = l'.
Proof. induction l; destruct l'; cbn; intros; try lia; auto. f_equal. apply IHl. lia. Qed.

(** the predicate is a function of the two values *)
Definition pless (lessv : val -> val -> bool) (h : heap) (x y : val) : res bool := Ok (lessv x y).
Definition app_key (key : option (val -> val)) (x : val) : val := match key with None => x | Some k => k x end.
Definition by_key (lessv : val -> val -> bool) (key : option (val -> val)) (x y : val) : bool :=
  lessv (app_key key x) (app_key key y).

Lemma istable_sortx_ok : forall lessv key h v cs, closed h -> chain h v cs Nil ->
  (forall x, In x (map snd cs) -> in_heap h (app_key key x)) ->
  exists h' p cs', istable_sortx (pless lessv) key h v = Ok (h', p) /\ length h <= length h' /\
    changed_only (map fst cs) h h' /\ chain h' p cs' Nil /\
    Permutation (map fst cs) (map fst cs') /\ map snd cs' = psort (by_key lessv key) (S (length cs)) (map snd cs).
Proof.
  intros lessv key h v cs Cl C Hk. destruct key as [key|]; cbn [istable_sortx].
  - destruct cs as [|[p x] cs].
    { unfold istable_sortx_key. apply chain_nil_inv in C. subst v. cbn [nullp]. exists h, Nil, [].
      split; [reflexivity|]. split; [lia|]. split; [apply changed_refl|]. split; [apply chain_nil|]. split; reflexivity. }
    unfold istable_sortx_key. destruct (chain_cons_inv _ _ _ _ _ _ C) as (-> & _). cbn [nullp pairp].
    set (l := (p, x) :: cs) in *.
    assert (ND : NoDup (map fst l)) by (eapply seg_nodup; [exact C|reflexivity]).
    assert (Hn : forall c, In c l -> fst c < length h).
    { intros c Hc. eapply chain_bound; [exact C|]. apply in_map. auto. }
    assert (Len : length l <= length h).
    { rewrite <- (map_length fst). eapply (seg_short h _ _ _ _ C). reflexivity. }
    destruct (add_keys_ok key (S (length h)) h (Ptr p) l (length h)) as (h1 & ps & E1 & Cl1 & L1 & Ch1 & Lps & C1 & F1); auto; try lia.
    { intros c Hc. apply Hk. apply in_map. auto. }
    rewrite E1. cbn [bind].
    set (l1 := combine (map fst l) ps) in *.
    assert (Fst1 : map fst l1 = map fst l) by (apply combine_fst; rewrite map_length; auto).
    assert (Snd1 : map snd l1 = ps) by (apply combine_snd; rewrite map_length; auto).
    assert (Kp : Forall (kpair h1 key (length h)) ps).
    { clear - F1. induction F1; constructor; auto. destruct H as (a & -> & La & Ha). eexists a, _. eauto. }
    assert (Elts : map (elt_in h1) ps = map snd l).
    { clear - F1. induction F1; cbn [map]; auto. destruct H as (a & -> & La & Ha). cbn [elt_in]. rewrite Ha. f_equal. auto. }
    set (L := fun u v => lessv (key_in h1 u) (key_in h1 v)).
    set (Sp := fun a : nat => a < length h). set (E := kpair h1 key (length h)).
    set (G := fun hh : heap => forall a, length h <= a -> nth_error hh a = nth_error h1 a).
    assert (Hless : forall hh u w, G hh -> E u -> E w -> kless (pless lessv) hh u w = Ok (L u w)).
    { intros hh u w Gh (a & xa & -> & La & Ha) (b & xb & -> & Lb & Hb). unfold kless.
      assert (A1 : nth_error hh a = Some (xa, key xa)) by (rewrite Gh; auto).
      assert (B1 : nth_error hh b = Some (xb, key xb)) by (rewrite Gh; auto).
      rewrite (scdr_at _ _ _ _ A1), (scdr_at _ _ _ _ B1). cbn [bind]. unfold pless, L, key_in. rewrite Ha, Hb. reflexivity. }
    assert (Gst : forall hh a c, Sp a -> G hh -> G (store a c hh)).
    { intros hh a c Ha Gh b Hb. unfold Sp in Ha. rewrite store_other by lia. auto. }
    destruct (istable_sortx_id_ok (kless (pless lessv)) L Sp E G Hless Gst h1 (Ptr p) l1) as (h2 & pp & cs2 & E2 & L2 & Ch2 & G2 & C2 & P2 & V2); auto.
    { rewrite Fst1. unfold addrs_ok, Sp. rewrite Forall_forall. intros a Ha. apply in_map_iff in Ha. destruct Ha as (c & <- & Hc). auto. }
    { apply elts_ok_map. rewrite Snd1. exact Kp. }
    { intros a _. reflexivity. }
    rewrite E2. cbn [bind]. rewrite Fst1 in P2. rewrite Snd1 in V2.
    assert (Kp2 : Forall (fun c => kpair h1 key (length h) (snd c)) cs2).
    { rewrite <- (Forall_map snd). rewrite V2. eapply Permutation_Forall; [apply psort_perm|exact Kp]. }
    destruct (strip_keys_ok key h1 (length h) (S (length h2)) h2 pp cs2) as (h3 & E3 & L3 & Ch3 & C3); auto.
    + eapply Permutation_NoDup; eauto.
    + apply Permutation_length in P2. rewrite !map_length in P2. lia.
    + intros c Hc. assert (Hin : In (fst c) (map fst l)) by (eapply Permutation_in; [symmetry; exact P2|apply in_map; auto]).
      apply in_map_iff in Hin. destruct Hin as (c2 & <- & Hc2). auto.
    + rewrite E3. cbn [bind]. eexists h3, pp, _. split; [reflexivity|]. split; [lia|].
      split. { intros a La Na. rewrite Ch3, Ch2, Ch1; auto; try lia.
               - rewrite Fst1. auto.
               - intro X. apply Na. eapply Permutation_in; [symmetry; exact P2|auto]. }
      split; [exact C3|]. rewrite !map_map. cbn [fst snd]. split; [exact P2|].
      rewrite <- (map_map snd (elt_in h1)). rewrite V2.
      rewrite (psort_map (elt_in h1) L (by_key lessv (Some key))).
      * rewrite Elts. unfold l1. rewrite combine_length, map_length, Lps, Nat.min_id. reflexivity.
      * rewrite Forall_forall in Kp. intros u w Hu Hw. destruct (Kp u Hu) as (a & xa & -> & La & Ha). destruct (Kp w Hw) as (b & xb & -> & Lb & Hb).
        unfold L, by_key, key_in, elt_in, app_key. rewrite Ha, Hb. reflexivity.
  - destruct (istable_sortx_id_ok (pless lessv) lessv (fun _ => True) (fun _ => True) (fun _ => True)) with (h := h) (v := v) (cs := cs)
      as (h' & p & cs' & E1 & L1 & Ch & _ & C1 & P1 & V1); auto.
    { apply Forall_forall. auto. } { apply Forall_forall. auto. }
    exists h', p, cs'. split; [exact E1|]. split; [lia|]. auto.
Qed.

Lemma nodup_app_r : forall {T} (a b : list T), NoDup (a ++ b) -> NoDup b.
Proof. induction a; cbn; intros b H; auto. inversion H; auto. Qed.
(** ** the head exchange *)
Lemma fix_head_ok : forall f rest h s x0 pre pp xp q xq post, 
  chain h (Ptr s) (pre ++ (pp, xp) :: rest ++ (q, xq) :: post) Nil ->
  (exists tl, pre ++ [(pp, xp)] = (s, x0) :: tl) ->
  NoDup (map fst (pre ++ (pp, xp) :: rest ++ (q, xq) :: post)) ->
  length rest < f ->
  exists h' cs', fix_head f h (Ptr s) (Ptr q) (Ptr pp) = Ok (h', Ptr q) /\ length h' = length h /\
    changed_only (map fst (pre ++ (pp, xp) :: rest ++ (q, xq) :: post)) h h' /\
    chain h' (Ptr q) cs' Nil /\ map snd cs' = map snd (pre ++ (pp, xp) :: rest ++ (q, xq) :: post) /\
    Permutation (map fst cs') (map fst (pre ++ (pp, xp) :: rest ++ (q, xq) :: post)).
Proof.
  induction f; intros rest h s x0 pre pp xp q xq post C Hs ND Hf; [lia|]. cbn [fix_head].
  destruct (chain_app_inv _ _ _ _ _ C) as (u & C1 & C2).
  destruct (chain_cons_inv _ _ _ _ _ _ C2) as (-> & d & Hp & C3).
  rewrite (scdr_at _ _ _ _ Hp). cbn [bind].
  destruct rest as [|[r xr] rest].
  - cbn [app] in *. destruct (chain_cons_inv _ _ _ _ _ _ C3) as (-> & dq & Hq & C4).
    rewrite (proj2 (val_eqb_eq (Ptr q) (Ptr q)) eq_refl).
    rewrite map_app in ND. cbn [map fst] in ND.
    destruct pre as [|[s' x0'] mid].
    + destruct Hs as (tl & Hs). cbn in Hs. injection Hs as -> -> Htl.
      cbn [app map fst] in ND.
      assert (Nsq : s <> q) by (inversion ND; subst; cbn in *; intuition).
      assert (Nsp : ~ In s (map fst post)) by (inversion ND; subst; cbn in *; intuition).
      assert (Nqp : ~ In q (map fst post)) by (inversion ND as [|? ? ? X]; inversion X; auto).
      assert (Ls : s < length h) by (eapply some_lt; eauto). assert (Lq : q < length h) by (eapply some_lt; eauto).
      rewrite (scar_at _ _ _ _ Hp), (scdr_at _ _ _ _ Hp), (scar_at _ _ _ _ Hq), (scdr_at _ _ _ _ Hq). cbn [bind].
      rewrite (set_car_at _ _ _ _ xq Hp). cbn [bind].
      set (h1 := store s (xq, Ptr q) h).
      assert (S1 : nth_error h1 s = Some (xq, Ptr q)) by (apply store_same; auto).
      rewrite (set_cdr_at _ _ _ _ dq S1). cbn [bind]. set (h2 := store s (xq, dq) h1).
      assert (Q2 : nth_error h2 q = Some (xq, dq)) by (unfold h2, h1; rewrite !store_other by auto; auto).
      rewrite (set_car_at _ _ _ _ x0 Q2). cbn [bind]. set (h3 := store q (x0, dq) h2).
      rewrite (proj2 (val_eqb_eq (Ptr s) (Ptr s)) eq_refl).
      assert (Lh3 : length h3 = length h) by (unfold h3, h2, h1; rewrite !store_len; auto).
      assert (Q3 : nth_error h3 q = Some (x0, dq)) by (apply store_same; unfold h2, h1; rewrite !store_len; auto).
      rewrite (set_cdr_at _ _ _ _ (Ptr s) Q3). cbn [bind].
      exists (store q (x0, Ptr s) h3), ((q, x0) :: (s, xq) :: post). split; [reflexivity|]. split; [rewrite store_len; auto|].
      split. { intros a La Na. cbn in Na. unfold h3, h2, h1. rewrite !store_other by tauto. auto. }
      split. { eapply chain_cons; [apply store_same; lia|]. eapply chain_cons.
               - rewrite store_other by auto. unfold h3. rewrite store_other by auto. apply store_same. unfold h1. rewrite store_len. auto.
               - unfold h3, h2, h1. repeat apply chain_store; auto. }
      split; [reflexivity|]. cbn [app map fst]. apply perm_swap.
    + destruct Hs as (tl & Hs). cbn in Hs. injection Hs as -> -> Htl.
      cbn [app map fst] in ND. cbn [app] in C1.
      destruct (chain_cons_inv _ _ _ _ _ _ C1) as (_ & ds & Hs1 & Cm).
      inversion ND as [|? ? Ns ND']; subst.
      assert (Ns' : s <> pp /\ s <> q /\ ~ In s (map fst mid) /\ ~ In s (map fst post)).
      { rewrite in_app_iff in Ns. cbn in Ns. repeat split; intro; subst; tauto. }
      assert (Np : ~ In pp (map fst mid) /\ pp <> q /\ ~ In pp (map fst post)).
      { apply NoDup_remove_2 in ND'. rewrite in_app_iff in ND'. cbn in ND'. repeat split; intro; subst; tauto. }
      assert (Nq : ~ In q (map fst mid) /\ ~ In q (map fst post)).
      { replace (map fst mid ++ pp :: q :: map fst post) with ((map fst mid ++ [pp]) ++ q :: map fst post) in ND' by (rewrite <- app_assoc; reflexivity).
        apply NoDup_remove_2 in ND'. rewrite !in_app_iff in ND'. cbn in ND'. tauto. }
      assert (Ls : s < length h) by (eapply some_lt; eauto). assert (Lq : q < length h) by (eapply some_lt; eauto).
      assert (Lpp : pp < length h) by (eapply some_lt; eauto).
      rewrite (scar_at _ _ _ _ Hs1), (scdr_at _ _ _ _ Hs1), (scar_at _ _ _ _ Hq), (scdr_at _ _ _ _ Hq). cbn [bind].
      rewrite (set_car_at _ _ _ _ xq Hs1). cbn [bind].
      set (h1 := store s (xq, ds) h).
      assert (S1 : nth_error h1 s = Some (xq, ds)) by (apply store_same; auto).
      rewrite (set_cdr_at _ _ _ _ dq S1). cbn [bind]. set (h2 := store s (xq, dq) h1).
      assert (Q2 : nth_error h2 q = Some (xq, dq)) by (unfold h2, h1; rewrite !store_other by intuition; auto).
      rewrite (set_car_at _ _ _ _ x0 Q2). cbn [bind]. set (h3 := store q (x0, dq) h2).
      rewrite (proj2 (val_eqb_neq (Ptr pp) (Ptr s))) by (intro X; injection X as ->; tauto).
      assert (Lh3 : length h3 = length h) by (unfold h3, h2, h1; rewrite !store_len; auto).
      assert (Q3 : nth_error h3 q = Some (x0, dq)) by (apply store_same; unfold h2, h1; rewrite !store_len; auto).
      rewrite (set_cdr_at _ _ _ _ ds Q3). cbn [bind]. set (h4 := store q (x0, ds) h3).
      assert (P4 : nth_error h4 pp = Some (xp, Ptr q)) by (unfold h4, h3, h2, h1; rewrite !store_other by intuition; auto).
      rewrite (set_cdr_at _ _ _ _ (Ptr s) P4). cbn [bind].
      exists (store pp (xp, Ptr s) h4), ((q, x0) :: mid ++ (pp, xp) :: (s, xq) :: post). split; [reflexivity|].
      split; [rewrite store_len; unfold h4; rewrite store_len; auto|].
      split. { intros a La Na. cbn in Na. rewrite map_app, in_app_iff in Na. cbn in Na. unfold h4, h3, h2, h1. rewrite !store_other by intuition. auto. }
      split. { eapply chain_cons.
               - rewrite store_other by intuition. unfold h4. apply store_same. lia.
               - eapply chain_app.
                 + apply chain_store; [|tauto]. unfold h4, h3, h2, h1. repeat (apply chain_store; [|tauto]). exact Cm.
                 + eapply chain_cons; [apply store_same; unfold h4; rewrite store_len; lia|].
                   eapply chain_cons.
                   * rewrite store_other by intuition. unfold h4. rewrite store_other by intuition. unfold h3. rewrite store_other by intuition.
                     apply store_same. unfold h1. rewrite store_len. auto.
                   * unfold h4, h3, h2, h1. repeat (apply chain_store; [|tauto]). exact C4. }
      split. { rewrite !map_app. cbn [map snd app]. rewrite !map_app. reflexivity. }
      cbn [app map fst]. rewrite !map_app. cbn [map fst].
      transitivity (q :: s :: map fst mid ++ pp :: map fst post).
      { apply perm_skip. symmetry. etransitivity; [apply Permutation_middle|]. apply Permutation_app_head. apply perm_swap. }
      rewrite perm_swap. apply perm_skip. etransitivity; [apply Permutation_middle|]. apply Permutation_app_head. apply perm_swap.
  - cbn [app] in *. destruct (chain_cons_inv _ _ _ _ _ _ C3) as (-> & dr & Hr & C4).
    assert (Nrq : r <> q).
    { rewrite map_app in ND. apply nodup_app_r in ND. cbn [map fst] in ND. rewrite map_app in ND. cbn [map fst] in ND.
      intro; subst. inversion ND as [|? ? _ X]; subst. inversion X as [|? ? Y _]; subst. apply Y. apply in_or_app. right; left; auto. }
    rewrite (proj2 (val_eqb_neq (Ptr r) (Ptr q))) by congruence.
    replace (pre ++ (pp, xp) :: (r, xr) :: rest ++ (q, xq) :: post) with ((pre ++ [(pp, xp)]) ++ (r, xr) :: rest ++ (q, xq) :: post) in * by (rewrite <- app_assoc; reflexivity).
    apply (IHf rest h s x0 (pre ++ [(pp, xp)]) r xr q xq post); auto.
    + destruct Hs as (tl & Hs). rewrite Hs. exists (tl ++ [(r, xr)]). reflexivity.
    + cbn in Hf. lia.
Qed.
