From Coq Require Import List Bool ZArith Lia Sorting.Sorted Permutation.
From Verif Require Import Outcome TreeModel TreeSpec TreeApi TreeProofs TreeProofs2.
Import ListNotations.
Local Open Scope nat_scope.

Section P.
Context {K V : Type}.
Variable cmp : K -> K -> Z.
Hypothesis O : ordering cmp.
Implicit Types (t l r : tree K V) (p : path K V) (e : entry K V) (tc : core K V).

Definition abs tc : alist K V := vals (elements (root tc)).
Definition good tc : Prop := inv cmp tc /\ full (elements (root tc)).

(** ** balance: the consistency check and the depth bound *)
Lemma check_traverse_ok : forall t n d, rb t n ->
  check_traverse t d = Some ((d + n)%nat, Z.of_nat (length (elements t))).
Proof.
  induction t as [|c l IHl i k v r IHr]; intros n d H; cbn [check_traverse elements].
  - cbn in H. subst. now rewrite Nat.add_0_r.
  - destruct c; cbn [isblack isred negb andb].
    + destruct H as (Hl & Hr & Bl & Br). rewrite !redp_blackp, Bl, Br. cbn [negb orb].
      rewrite (IHl n), (IHr n), Nat.eqb_refl by auto. rewrite app_length. cbn [length]. do 2 f_equal. lia.
    + destruct H as (m & -> & Hl & Hr). rewrite (IHl m), (IHr m), Nat.eqb_refl by auto.
      rewrite app_length. cbn [length]. do 2 f_equal; lia.
Qed.
Lemma check_ok : forall tc, inv cmp tc -> check_consistency tc = true.
Proof.
  intros tc [[B [n R]] _ _ _ N]. unfold check_consistency. rewrite B. cbn [andb].
  rewrite (check_traverse_ok _ n) by auto. rewrite N. apply Z.eqb_refl.
Qed.

Fixpoint height t : nat := match t with E => 0 | T _ l _ _ _ r => S (Nat.max (height l) (height r)) end.
Fixpoint plen p : nat := match p with Top => 0 | PL _ _ _ _ _ up => S (plen up) | PR _ _ _ _ _ up => S (plen up) end.
Lemma rb_height : forall t n, rb t n -> height t <= 2 * n + (if redp t then 1 else 0).
Proof.
  induction t as [|c l IHl i k v r IHr]; intros n H; cbn [height]; [lia|].
  destruct c; cbn in H; cbn [redp].
  - destruct H as (Hl & Hr & Bl & Br). apply IHl in Hl. apply IHr in Hr. rewrite !redp_blackp, Bl in Hl.
    rewrite redp_blackp, Br in Hr. cbn in *. lia.
  - destruct H as (m & -> & Hl & Hr). apply IHl in Hl. apply IHr in Hr.
    destruct (redp l), (redp r); lia.
Qed.
Lemma rb_size : forall t n, rb t n -> 2 ^ n <= S (length (elements t)).
Proof.
  induction t as [|c l IHl i k v r IHr]; intros n H; cbn [elements].
  - cbn in H. subst. cbn. lia.
  - rewrite app_length. cbn [length]. destruct c; cbn in H.
    + destruct H as (Hl & Hr & _). apply IHl in Hl. lia.
    + destruct H as (m & -> & Hl & Hr). apply IHl in Hl. apply IHr in Hr. cbn [Nat.pow]. lia.
Qed.
Lemma rb_depth : forall t, rbroot t -> height t <= 2 * Nat.log2 (S (length (elements t))).
Proof.
  intros t [B [n R]]. pose proof (rb_height _ _ R) as H. rewrite redp_blackp, B in H. cbn [negb] in H.
  pose proof (rb_size _ _ R) as S. apply Nat.log2_le_mono in S. rewrite Nat.log2_pow2 in S; lia.
Qed.
Lemma zip_height : forall p t, plen p + height t <= height (zip t p).
Proof.
  induction p as [|c i k v r up IH|c l i k v up IH]; intro t; cbn [plen zip]; [lia| |].
  - pose proof (IH (T c t i k v r)). cbn [height] in H. lia.
  - pose proof (IH (T c l i k v t)). cbn [height] in H. lia.
Qed.
Lemma descend_zip : forall key t p,
  match descend cmp key t p with
  | Hit c l i k v r p' => zip (T c l i k v r) p' = zip t p
  | Miss p' => zip E p' = zip t p
  end.
Proof.
  induction t as [|c l IHl i k v r IHr]; intros p; cbn [descend]; auto.
  destruct (Z.eqb (cmp k key) 0); auto. destruct (Z.ltb (cmp k key) 0).
  - apply (IHr (PR c l i k v p)).
  - apply (IHl (PL c i k v r p)).
Qed.
(** number of key comparisons the search made *)
Definition comparisons tc key : nat :=
  match descend cmp key (root tc) Top with Hit _ _ _ _ _ _ p => S (plen p) | Miss p => plen p end.
Lemma comparisons_bound : forall tc key, inv cmp tc ->
  comparisons tc key <= 2 * Nat.log2 (S (length (elements (root tc)))).
Proof.
  intros tc key I. pose proof (rb_depth _ (inv_rb _ _ I)) as D. unfold comparisons.
  pose proof (descend_zip key (root tc) Top) as Z. cbn [zip] in Z.
  destruct (descend cmp key (root tc) Top) as [c l i k v r p|p].
  - pose proof (zip_height p (T c l i k v r)). rewrite Z in H. cbn [height] in H. lia.
  - pose proof (zip_height p E). rewrite Z in H. cbn [height] in H. lia.
Qed.

(** ** copying *)
Definition kvs (es : list (entry K V)) : list (K * option V) := map (fun e => (ekey e, snd e)) es.
Lemma copy_spec : forall t n t' n', copy_tree t n = (t', n') ->
  kvs (elements t') = kvs (elements t) /\ (n <= n')%nat /\
  Forall (fun e => n <= entry_id e < n')%nat (elements t') /\ NoDup (map entry_id (elements t')) /\
  (forall m, rb t m -> rb t' m) /\ blackp t' = blackp t.
Proof.
  induction t as [|c l IHl i k v r IHr]; intros n t' n' H; cbn [copy_tree] in H.
  - inversion H; subst. repeat split; auto; constructor.
  - destruct (copy_tree l (S n)) as [l' n1] eqn:El. destruct (copy_tree r n1) as [r' n2] eqn:Er.
    inversion H; subst. apply IHl in El. apply IHr in Er.
    destruct El as (L1 & L2 & L3 & L4 & L5 & L6). destruct Er as (R1 & R2 & R3 & R4 & R5 & R6).
    cbn [elements]. repeat split.
    + unfold kvs in *. rewrite !map_app. cbn [map]. f_equal; [exact L1|]. f_equal. exact R1.
    + lia.
    + rewrite Forall_app. split; [eapply Forall_impl; [|exact L3]; cbn; intros; lia|].
      constructor; [cbn; lia|]. eapply Forall_impl; [|exact R3]; cbn; intros; lia.
    + rewrite map_app. cbn [map]. cbn [entry_id fst].
      rewrite Forall_forall in L3, R3.
      assert (Hl : forall x, In x (map entry_id (elements l')) -> (S n <= x < n1)%nat).
      { intros x Hx. apply in_map_iff in Hx. destruct Hx as (y & <- & Hy). now apply L3. }
      assert (Hr : forall x, In x (map entry_id (elements r')) -> (n1 <= x < n')%nat).
      { intros x Hx. apply in_map_iff in Hx. destruct Hx as (y & <- & Hy). now apply R3. }
      apply (Permutation_NoDup (Permutation_middle _ _ _)). constructor.
      * rewrite in_app_iff. intros [Hx|Hx]; [apply Hl in Hx|apply Hr in Hx]; lia.
      * clear - L4 R4 Hl Hr L2 R2. induction (map entry_id (elements l')) as [|x a IH]; cbn; auto.
        inversion L4; subst. constructor; [|apply IH; auto].
        -- rewrite in_app_iff. intros [Hx|Hx]; [tauto|]. apply Hr in Hx. specialize (Hl x (or_introl eq_refl)). lia.
        -- intros y Hy. apply Hl. now right.
    + intros m Hm. destruct c; cbn in Hm |- *.
      * rewrite L6, R6. intuition.
      * destruct Hm as (m' & ? & ? & ?). exists m'; auto.
Qed.
Lemma kvs_keys : forall a b, kvs a = kvs b -> map (@ekey K V) a = map ekey b.
Proof. intros a b H. apply (f_equal (map fst)) in H. unfold kvs in H. rewrite !map_map in H. exact H. Qed.
Lemma kvs_vals : forall a b, kvs a = kvs b -> vals a = vals b.
Proof.
  induction a as [|[[i k] v] a IH]; intros [|[[i' k'] v'] b] H; try discriminate; auto.
  cbn in H. injection H as <- <- H. cbn. destruct v; [f_equal|]; auto.
Qed.
Lemma kvs_full : forall a b, kvs a = kvs b -> full a -> full b.
Proof.
  induction a as [|[[i k] v] a IH]; intros [|[[i' k'] v'] b] H F; try discriminate; [constructor|].
  cbn in H. injection H as <- <- H. inversion F; subst. constructor; auto. now apply IH.
Qed.
Lemma core_copy_good : forall tc, good tc -> good (core_copy tc) /\ abs (core_copy tc) = abs tc
   /\ num_entries (core_copy tc) = num_entries tc
   /\ (forall e, In e (elements (root (core_copy tc))) -> ~ In (entry_id e) (map entry_id (elements (root tc)))).
Proof.
  intros tc [[R S N F M] Fu]. unfold core_copy.
  destruct (copy_tree (root tc) (fresh tc)) as [t n] eqn:E. apply copy_spec in E.
  destruct E as (E1 & E2 & E3 & E4 & E5 & E6).
  repeat split; cbn [root num_entries fresh]; auto.
  - rewrite E6. apply R.
  - destruct R as [_ [m R]]. eauto.
  - eapply sorted_keys; [|exact S]. now apply kvs_keys.
  - eapply Forall_impl; [|exact E3]. cbn; intros; lia.
  - rewrite M. apply (f_equal (@length _)) in E1. unfold kvs in E1. rewrite !map_length in E1. unfold entry in *. lia.
  - eapply kvs_full; [|exact Fu]. auto.
  - unfold abs. cbn [root]. now apply kvs_vals.
  - intros e He Hin. apply in_map_iff in Hin. destruct Hin as (x & Hx & Hin).
    rewrite Forall_forall in F, E3. specialize (F x Hin). specialize (E3 e He). lia.
Qed.

(** ** locating nodes, iterators *)
Lemma locate_spec : forall id t p,
  match locate id t p with
  | Hit c l i k v r p' => zip (T c l i k v r) p' = zip t p /\ i = id
  | Miss _ => ~ In id (map entry_id (elements t))
  end.
Proof.
  induction t as [|c l IHl i k v r IHr]; intro p; cbn [locate elements].
  - cbn. tauto.
  - destruct (Nat.eqb_spec i id); [auto|].
    specialize (IHl (PL c i k v r p)). destruct (locate id l _); [exact IHl|].
    specialize (IHr (PR c l i k v p)). destruct (locate id r _); [exact IHr|].
    rewrite map_app, in_app_iff. cbn. tauto.
Qed.
Lemma split_unique : forall (a a' : list (entry K V)) x x' b b',
  a ++ x :: b = a' ++ x' :: b' -> entry_id x = entry_id x' -> NoDup (map entry_id (a ++ x :: b)) ->
  a = a' /\ x = x' /\ b = b'.
Proof.
  induction a as [|y a IH]; intros [|y' a'] x x' b b' E Ei N; cbn in E.
  - injection E as -> ->. auto.
  - injection E as -> ->. exfalso. cbn in N. inversion N; subst. apply H1. rewrite map_app, in_app_iff.
    right. left. auto.
  - injection E as E1 E2. subst. exfalso. cbn in N. inversion N; subst. apply H1.
    rewrite map_app, in_app_iff. right. left. auto.
  - injection E as -> E. cbn in N. inversion N; subst. destruct (IH _ _ _ _ _ E Ei H2) as (-> & -> & ->). auto.
Qed.
Lemma locate_hit : forall tc a e b, NoDup (map entry_id (elements (root tc))) -> elements (root tc) = a ++ e :: b ->
  exists c l r p, locate (entry_id e) (root tc) Top = Hit c l (entry_id e) (ekey e) (snd e) r p
    /\ pl p ++ elements l = a /\ elements r ++ pr p = b.
Proof.
  intros tc a e b N E. pose proof (locate_spec (entry_id e) (root tc) Top) as L.
  destruct (locate (entry_id e) (root tc) Top) as [c l i k v r p|p].
  - destruct L as [Z ->]. cbn [zip] in Z.
    assert (E2 : elements (root tc) = (pl p ++ elements l) ++ (entry_id e, k, v) :: elements r ++ pr p).
    { rewrite <- Z, elements_zip. cbn. now rewrite <- !app_assoc. }
    rewrite E in E2.
    destruct (split_unique _ _ _ _ _ _ E2) as (A1 & A2 & A3); [reflexivity|rewrite <- E; exact N|].
    exists c, l, r, p. destruct e as [[ei ek] ev]. cbn in A2 |- *. injection A2 as <- <-. auto.
  - exfalso. apply L. rewrite E, map_app, in_app_iff. right. now left.
Qed.
Lemma node_at_ok : forall tc a e b, NoDup (map entry_id (elements (root tc))) -> elements (root tc) = a ++ e :: b ->
  node_at tc (entry_id e) = Some e.
Proof.
  intros tc a e b N E. destruct (locate_hit _ _ _ _ N E) as (c & l & r & p & L & _).
  unfold node_at. rewrite L. destruct e as [[]]. reflexivity.
Qed.
Lemma advance_ok : forall tc a e b, NoDup (map entry_id (elements (root tc))) -> elements (root tc) = a ++ e :: b ->
  advance_iter tc (Some (entry_id e)) = option_map entry_id (hd_error b).
Proof.
  intros tc a e b N E. destruct (locate_hit _ _ _ _ N E) as (c & l & r & p & L & _ & B).
  unfold advance_iter. rewrite L, next_node_spec, B. reflexivity.
Qed.
Lemma retrogress_ok : forall tc a e b, NoDup (map entry_id (elements (root tc))) -> elements (root tc) = a ++ e :: b ->
  retrogress_iter tc (Some (entry_id e)) = option_map entry_id (hd_error (rev a)).
Proof.
  intros tc a e b N E. destruct (locate_hit _ _ _ _ N E) as (c & l & r & p & L & A & _).
  unfold retrogress_iter. rewrite L, prev_node_spec, A. reflexivity.
Qed.
Lemma bound_id_ok : forall tc, bound_id tc true = option_map entry_id (hd_error (elements (root tc)))
  /\ bound_id tc false = option_map entry_id (hd_error (rev (elements (root tc)))).
Proof.
  intro tc. unfold bound_id. destruct (root tc) as [|c l i k v r]; [auto|]. split.
  - destruct (leftmost c l i k v r Top) as [[[[[yc yr] yi] yk] yv] q] eqn:El.
    apply leftmost_spec in El. destruct El as [E1 E2]. cbn [zip pl] in E1, E2.
    rewrite <- E1, elements_zip, E2. reflexivity.
  - destruct (rightmost c l i k v r Top) as [[[[[yc yr] yi] yk] yv] q] eqn:El.
    apply rightmost_spec in El. destruct El as [E1 E2]. cbn [zip pl] in E1, E2.
    rewrite <- E1, elements_zip, E2. cbn [elements pr]. rewrite app_nil_r, app_assoc, rev_app_distr. reflexivity.
Qed.

Lemma drain_up : forall tc b a it f, NoDup (map entry_id (elements (root tc))) ->
  elements (root tc) = a ++ b -> it_n it = option_map entry_id (hd_error b) -> (length b < f)%nat ->
  iter_drain f false tc it = Some b.
Proof.
  intros tc. induction b as [|e b IH]; intros a it f N E Hn Hf; (destruct f; [cbn in Hf; lia|]); cbn [iter_drain].
  - unfold iter_next. rewrite Hn. cbn. destruct (node_cleared_p _ _); reflexivity.
  - unfold iter_next. rewrite Hn. cbn [hd_error option_map].
    assert (Adv := advance_ok _ _ _ _ N E).
    rewrite Adv.
    destruct (node_cleared_p tc (it_c it)); cbn [it_c]; rewrite (node_at_ok _ _ _ _ N E);
      rewrite (IH (a ++ [e])); auto; cbn in *; try lia; now rewrite <- app_assoc.
Qed.
Lemma drain_down : forall tc b a it f, NoDup (map entry_id (elements (root tc))) ->
  elements (root tc) = b ++ a -> it_p it = option_map entry_id (hd_error (rev b)) -> (length b < f)%nat ->
  iter_drain f true tc it = Some (rev b).
Proof.
  intros tc b. induction b as [|e b IH] using rev_ind; intros a it f N E Hn Hf; (destruct f; [cbn in Hf; lia|]); cbn [iter_drain].
  - unfold iter_prev. rewrite Hn. cbn. destruct (node_cleared_p _ _); reflexivity.
  - unfold iter_prev. rewrite Hn. rewrite rev_app_distr. cbn [rev app hd_error option_map].
    rewrite <- app_assoc in E. cbn [app] in E.
    assert (Adv := retrogress_ok _ _ _ _ N E).
    rewrite Adv. rewrite app_length in Hf. cbn in Hf.
    destruct (node_cleared_p tc (it_c it)); cbn [it_c]; rewrite (node_at_ok _ _ _ _ N E);
      rewrite (IH (e :: a)); auto; cbn in *; lia.
Qed.

(** deleting the current entry during a pass *)
Lemma sweep_ok : forall kill b a tc it f, inv cmp tc ->
  elements (root tc) = a ++ b -> it_n it = option_map entry_id (hd_error b) -> (length b < f)%nat ->
  exists tc', sweep cmp f kill tc it = Ok (tc', b) /\ inv cmp tc' /\
    elements (root tc') = a ++ filter (fun e => negb (kill (ekey e))) b.
Proof.
  intros kill b. induction b as [|e b IH]; intros a tc it f I E Hn Hf; (destruct f; [cbn in Hf; lia|]); cbn [sweep].
  - unfold iter_next. rewrite Hn. cbn. exists tc. destruct (node_cleared_p _ _); cbn [it_c]; auto.
  - pose proof (inv_ids _ _ I) as N. unfold iter_next. rewrite Hn. cbn [hd_error option_map].
    rewrite (advance_ok _ _ _ _ N E).
    match goal with |- context [it_c ?x] => assert (Hc : it_c x = Some (entry_id e)) by (destruct (node_cleared_p _ _); reflexivity);
      assert (Hn' : it_n x = option_map entry_id (hd_error b)) by (destruct (node_cleared_p _ _); reflexivity);
      set (it' := x) in * end.
    rewrite Hc, (node_at_ok _ _ _ _ N E). cbn [of_opt bind].
    fold (ekey e). cbn [filter].
    destruct (kill (ekey e)) eqn:Ek; cbn [negb].
    + destruct (core_delete_spec cmp O tc (ekey e) I) as (tc' & x & y & mid & D1 & D2 & D3 & D4 & D5 & D6 & D7).
      rewrite D1. cbn [bind fst].
      assert (X : elements (root tc') = a ++ b).
      { destruct D7 as [->|(e' & -> & D7)].
        - exfalso. cbn [app] in D3. rewrite E in D3.
          assert (In e (x ++ y)) by (rewrite <- D3; apply in_or_app; right; now left).
          apply in_app_iff in H. rewrite Forall_forall in D5, D6. destruct H as [H|H].
          + specialize (D5 e H). unfold lo in D5. rewrite (cmp_refl _ O) in D5. lia.
          + specialize (D6 e H). unfold hi in D6. rewrite (cmp_refl _ O) in D6. lia.
        - cbn [app] in D3. assert (In e (x ++ e' :: y)) by (rewrite <- D3, E; apply in_or_app; right; now left).
          apply in_app_iff in H. rewrite Forall_forall in D5, D6. destruct H as [H|[H|H]].
          + specialize (D5 e H). unfold lo in D5. rewrite (cmp_refl _ O) in D5. lia.
          + subst e'. rewrite E in D3. destruct (split_unique _ _ _ _ _ _ D3) as (-> & _ & ->); auto.
            rewrite <- E. apply N.
          + specialize (D6 e H). unfold hi in D6. rewrite (cmp_refl _ O) in D6. lia. }
      destruct (IH a tc' it' f) as (tc2 & S1 & S2 & S3); auto; [cbn in Hf; lia|].
      rewrite S1. cbn [bind fst snd]. exists tc2. auto.
    + cbn [bind]. destruct (IH (a ++ [e]) tc it' f) as (tc2 & S1 & S2 & S3); auto; [now rewrite <- app_assoc|cbn in Hf; lia|].
      rewrite S1. cbn [bind fst snd]. exists tc2. rewrite <- app_assoc in S3. auto.
Qed.

(** ** every API step simulates the specification *)
Lemma full_app : forall (a b : list (entry K V)), full (a ++ b) <-> full a /\ full b.
Proof. intros. apply Forall_app. Qed.
Lemma full_cons : forall e (b : list (entry K V)), full (e :: b) <-> snd e <> None /\ full b.
Proof. intros. apply Forall_cons_iff. Qed.
Lemma vals_cons : forall i k v (b : list (entry K V)), vals ((i, k, Some v) :: b) = (k, v) :: vals b.
Proof. reflexivity. Qed.

Lemma upd_mid : forall (a b : list (entry K V)) e val, NoDup (map entry_id (a ++ e :: b)) ->
  map (upd (entry_id e) val) (a ++ e :: b) = a ++ (entry_id e, ekey e, Some val) :: b.
Proof.
  intros a b e val N. destruct (NoDup_mid _ _ _ N). rewrite map_app. cbn [map].
  rewrite !upd_notin by auto. unfold upd. now rewrite Nat.eqb_refl.
Qed.

Ltac fulls H := repeat (rewrite ?full_app, ?full_cons in H).
Lemma set_good : forall tc key v nc no, good tc -> (num_entries tc < 2147483647)%Z ->
  exists tc', treemap_set cmp tc key v nc no = Ok (tc', lookup cmp key (abs tc)) /\ good tc' /\
  (num_entries tc <= num_entries tc' <= num_entries tc + 1)%Z /\
  abs tc' = match lookup cmp key (abs tc) with
            | Some _ => if no then abs tc else put cmp key v (abs tc)
            | None => if nc then abs tc else put cmp key v (abs tc)
            end.
Proof.
  intros tc key v nc no [I F] Hn. unfold treemap_set.
  destruct nc.
  - destruct (core_get_spec cmp O tc key I) as (a & b & mid & E & La & Hb & _ & [[-> G]|(e & -> & Ek & G)]); rewrite G; cbn [bind fst snd].
    + exists tc. unfold abs in *. rewrite E. cbn [app]. rewrite vals_app, lookup_miss by (auto using lo_below, hi_above).
      split; [reflexivity|]. split; [split; auto|]. split; [lia|reflexivity].
    + destruct e as [[i k] [w|]].
      2:{ rewrite E in F. fulls F. cbn in F. intuition congruence. }
      rewrite orb_false_r. unfold abs. rewrite E. cbn [app]. rewrite vals_app, vals_cons.
      rewrite (lookup_hit _ _ _ _ (lo_below cmp _ _ La) _ _ Ek).
      rewrite (put_hit _ _ _ _ (lo_below cmp _ _ La) (hi_above cmp _ _ Hb) _ _ Ek).
      eexists. split; [reflexivity|].
      destruct no; cbn [negb].
      * split; [split; auto|]. split; [lia|]. rewrite E. cbn [app]. now rewrite vals_app, vals_cons.
      * pose proof (inv_ids _ _ I) as N. cbn [app] in E. rewrite E in N.
        pose proof (upd_mid _ _ _ v N) as U. cbn [entry_id ekey fst snd] in U.
        assert (X : elements (set_node_value (root tc) i v) = a ++ (i, k, Some v) :: b).
        { rewrite set_elements by apply I. rewrite E. exact U. }
        split; [split; [now apply set_inv|]|].
        -- cbn [root]. rewrite X. rewrite E in F. fulls F. rewrite full_app, full_cons. cbn in *; intuition congruence.
        -- cbn [root num_entries]. split; [lia|]. rewrite X. now rewrite vals_app, vals_cons.
  - destruct (core_create_spec cmp O tc key I Hn) as (tc' & e & a & b & C & I' & Ek & La & Hb & E' & X).
    rewrite C. cbn [bind fst snd]. destruct e as [[i k] old].
    pose proof (inv_ids _ _ I') as N. rewrite E' in N.
    pose proof (upd_mid _ _ _ v N) as U. cbn [entry_id ekey fst snd] in U.
    assert (X' : elements (set_node_value (root tc') i v) = a ++ (i, k, Some v) :: b).
    { rewrite set_elements by apply I'. rewrite E'. exact U. }
    destruct X as [->|(E & Eo & Ek')].
    + destruct old as [w|].
      2:{ rewrite E' in F. fulls F. cbn in F. intuition congruence. }
      rewrite orb_false_r. unfold abs. rewrite E'. cbn [app]. rewrite vals_app, vals_cons.
      rewrite (lookup_hit _ _ _ _ (lo_below cmp _ _ La) _ _ Ek).
      rewrite (put_hit _ _ _ _ (lo_below cmp _ _ La) (hi_above cmp _ _ Hb) _ _ Ek).
      eexists. split; [reflexivity|].
      destruct no; cbn [negb].
      * split; [split; auto|]. split; [lia|]. rewrite E'. cbn [app]. now rewrite vals_app, vals_cons.
      * split; [split; [now apply set_inv|]|].
        -- cbn [root]. rewrite X'. rewrite E' in F. fulls F. rewrite full_app, full_cons. cbn in *; intuition congruence.
        -- cbn [root num_entries]. split; [lia|]. rewrite X'. now rewrite vals_app, vals_cons.
    + cbn [snd] in Eo. subst old. rewrite orb_true_r. unfold abs at 1 2. rewrite E, vals_app.
      rewrite lookup_miss by (auto using lo_below, hi_above).
      eexists. split; [reflexivity|].
      split; [split; [now apply set_inv|]|].
      -- cbn [root]. rewrite X'. rewrite E in F. fulls F. rewrite full_app, full_cons. cbn in *; intuition congruence.
      -- cbn [root num_entries]. split.
         ++ rewrite (inv_num _ _ I), (inv_num _ _ I'), E, E', !app_length. cbn [length]. lia.
         ++ unfold abs. cbn [root]. rewrite X', E, !vals_app, vals_cons. cbn in Ek'. subst k.
            symmetry. rewrite lookup_miss by (auto using lo_below, hi_above). apply put_miss; auto using lo_below, hi_above.
Qed.

Ltac sp := unfold good; repeat match goal with |- _ /\ _ => split end.
Lemma step_ok : forall o tc, good tc -> (num_entries tc < 2147483647)%Z ->
  exists tc', tree_step cmp o tc = Ok (tc', snd (spec_step cmp o (abs tc))) /\ good tc' /\
     abs tc' = fst (spec_step cmp o (abs tc)) /\ (num_entries tc' <= num_entries tc + 1)%Z.
Proof.
  intros o tc G Hn. destruct G as [I F]. assert (G : good tc) by (split; auto).
  destruct o; cbn [tree_step spec_step fst snd].
  - destruct (set_good tc k v false false G Hn) as (tc' & E & G' & N & A). rewrite E. cbn [bind fst snd].
    exists tc'. split; [reflexivity|]. split; auto. split; [|lia]. rewrite A. destruct (lookup _ _ _); reflexivity.
  - destruct (set_good tc k v true false G Hn) as (tc' & E & G' & N & A). rewrite E. cbn [bind fst snd].
    exists tc'. split; [reflexivity|]. split; auto. split; [|lia]. exact A.
  - destruct (set_good tc k v false true G Hn) as (tc' & E & G' & N & A). rewrite E. cbn [bind fst snd].
    exists tc'. split; [reflexivity|]. split; auto. split; [|lia]. exact A.
  - exists tc. split; [|split; [auto|split; [auto|lia]]]. do 3 f_equal. unfold treemap_ref.
    destruct (core_get_spec cmp O tc k I) as (a & b & mid & E & La & Hb & _ & [[-> Q]|(e & -> & Ek & Q)]); rewrite Q; unfold abs; rewrite E; cbn [app].
    + now rewrite vals_app, lookup_miss by (auto using lo_below, hi_above).
    + destruct e as [[i k'] [w|]].
      * rewrite vals_app, vals_cons. now rewrite (lookup_hit _ _ _ _ (lo_below cmp _ _ La) _ _ Ek).
      * rewrite E in F. fulls F. cbn in F. intuition congruence.
  - unfold treemap_delete. destruct (core_delete_spec cmp O tc k I) as (tc' & a & b & mid & D1 & D2 & D3 & D4 & D5 & D6 & D7).
    rewrite D1. cbn [bind fst snd]. exists tc'.
    assert (Q : (num_entries tc' <= num_entries tc + 1)%Z).
    { rewrite (inv_num _ _ I), (inv_num _ _ D2), D3, D4, !app_length. lia. }
    rewrite D3 in F. fulls F. unfold abs. rewrite D3, D4.
    destruct D7 as [->|(e & -> & Ek)]; cbn [app hd_error].
    + rewrite vals_app, lookup_miss, remove_miss by (auto using lo_below, hi_above).
      split; [reflexivity|]. sp; auto. rewrite D4. apply full_app; tauto.
    + destruct e as [[i k'] [w|]]; [|cbn in F; fulls F; cbn in F; intuition congruence].
      rewrite vals_app, vals_cons. rewrite (lookup_hit _ _ _ _ (lo_below cmp _ _ D5) _ _ Ek).
      rewrite (remove_hit _ _ _ _ (lo_below cmp _ _ D5) (hi_above cmp _ _ D6) _ _ Ek).
      split; [reflexivity|]. sp; auto; [|now rewrite vals_app]. rewrite D4. apply full_app; tauto.
  - destruct (core_bound_spec cmp tc true false I) as (tc' & B1 & B2 & B3). rewrite B1. cbn [bind fst snd].
    rewrite pair_opt_hd by auto. cbn [bind].
    exists tc'. unfold good, abs. rewrite B3. split; [reflexivity|]. sp; auto.
    rewrite (inv_num _ _ I), (inv_num _ _ B2), B3. lia.
  - destruct (core_bound_spec cmp tc false false I) as (tc' & B1 & B2 & B3). rewrite B1. cbn [bind fst snd].
    rewrite pair_opt_hd, vals_rev by (auto; now apply Forall_rev). cbn [bind].
    exists tc'. unfold good, abs. rewrite B3. split; [reflexivity|]. sp; auto.
    rewrite (inv_num _ _ I), (inv_num _ _ B2), B3. lia.
  - destruct (core_bound_spec cmp tc true true I) as (tc' & B1 & B2 & B3). rewrite B1. cbn [bind fst snd].
    rewrite pair_opt_hd by auto. cbn [bind].
    exists tc'. unfold good, abs. rewrite B3. split; [reflexivity|]. sp; auto.
    + destruct (elements (root tc)) as [|[[? ?] ?] ?]; cbn; auto. inversion F; auto.
    + destruct (elements (root tc)) as [|[[? ?] [?|]] ?]; cbn; auto. inversion F; subst. cbn in *; congruence.
    + rewrite (inv_num _ _ I), (inv_num _ _ B2), B3. destruct (elements (root tc)); cbn [tl length]; lia.
  - destruct (core_bound_spec cmp tc false true I) as (tc' & B1 & B2 & B3). rewrite B1. cbn [bind fst snd].
    rewrite pair_opt_hd, vals_rev by (auto; now apply Forall_rev). cbn [bind].
    exists tc'. unfold good, abs. rewrite B3. split; [reflexivity|].
    destruct (elements (root tc)) as [|e0 es] eqn:El using rev_ind.
    + cbn. sp; auto. rewrite (inv_num _ _ I), (inv_num _ _ B2), B3, El. cbn. lia.
    + clear IHes. rewrite removelast_last in *. fulls F. destruct F as [F1 F2]. destruct F2 as [F2 _].
      sp; auto.
      * rewrite vals_app. destruct e0 as [[? ?] [?|]]; [|cbn in F2; congruence]. cbn [vals]. now rewrite removelast_last.
      * rewrite (inv_num _ _ I), (inv_num _ _ B2), B3, El, app_length. cbn. lia.
  - destruct (core_get_spec cmp O tc k I) as (a & b & mid & E & La & Hb & N & Q). rewrite N.
    exists tc. unfold good, abs. rewrite E in *. fulls F.
    assert (P1 : pair_opt (hd_error (rev a)) = Ok (hd_error (rev (vals a)))).
    { rewrite <- vals_rev by tauto. apply pair_opt_hd, Forall_rev. tauto. }
    assert (P2 : pair_opt (hd_error b) = Ok (hd_error (vals b))) by (apply pair_opt_hd; tauto).
    destruct Q as [[-> Q]|(e & -> & Ek & Q)]; rewrite Q; cbn [app pair_opt bind].
    + rewrite P1, P2. cbn [bind]. rewrite vals_app, find_miss, pred_miss, succ_miss by (auto using lo_below, hi_above).
      split; [reflexivity|]. sp; auto; try lia; apply full_app; tauto.
    + destruct e as [[i k'] [w|]]; [|cbn in F; fulls F; cbn in F; intuition congruence].
      cbn [pair_of bind]. rewrite P1, P2. cbn [bind]. rewrite vals_app, vals_cons.
      rewrite (find_hit _ _ _ _ (lo_below cmp _ _ La) _ _ Ek).
      rewrite (pred_hit _ _ _ _ (lo_below cmp _ _ La) (hi_above cmp _ _ Hb) _ _ Ek).
      rewrite (succ_hit _ _ _ _ (lo_below cmp _ _ La) (hi_above cmp _ _ Hb) _ _ Ek).
      split; [reflexivity|]. sp; auto; try lia. fulls F. rewrite full_app, full_cons. cbn in F; tauto.
  - exists tc. unfold good, abs. rewrite vals_length by auto. rewrite (inv_num _ _ I).
    split; [reflexivity|]. sp; auto. lia.
  - exists tc. cbn [iter_init bind].
    rewrite (drain_up tc (elements (root tc)) []); [|apply I|reflexivity|apply bound_id_ok|rewrite (inv_num _ _ I); lia].
    cbn [of_opt bind]. rewrite pair_list_vals by auto. cbn [bind].
    split; [reflexivity|]. sp; auto. lia.
  - exists tc. cbn [iter_init bind].
    rewrite (drain_down tc (elements (root tc)) []); [|apply I|now rewrite app_nil_r|apply bound_id_ok|rewrite (inv_num _ _ I); lia].
    cbn [of_opt bind]. rewrite pair_list_vals by (now apply Forall_rev). cbn [bind]. rewrite vals_rev by auto.
    split; [reflexivity|]. sp; auto. lia.
  - exists (core_clear tc). split; [reflexivity|]. unfold core_clear, good, abs. cbn [root num_entries elements vals].
    repeat split; cbn; try constructor; auto. exists 0; reflexivity. pose proof (inv_num _ _ I). lia.
  - destruct (core_copy_good tc G) as (G' & A & N & _). exists (core_copy tc).
    split; [reflexivity|]. split; auto. split; auto. lia.
  - exists tc. rewrite (check_ok tc I). split; [reflexivity|]. sp; auto. lia.
Qed.

Lemma run_ok : forall ops tc, good tc -> (num_entries tc + Z.of_nat (length ops) < 2147483647)%Z ->
  exists tc', tree_run cmp ops tc = Ok (tc', snd (spec_run cmp ops (abs tc))) /\ good tc' /\
     abs tc' = fst (spec_run cmp ops (abs tc)).
Proof.
  induction ops as [|o ops IH]; intros tc G Hn; cbn [tree_run spec_run length] in *.
  - exists tc. auto.
  - destruct (step_ok o tc G) as (tc1 & E1 & G1 & A1 & N1); [lia|]. rewrite E1. cbn [bind fst snd].
    destruct (IH tc1 G1) as (tc2 & E2 & G2 & A2); [lia|]. rewrite E2. cbn [bind fst snd].
    rewrite A1 in *. destruct (spec_step cmp o (abs tc)) as [m a]. cbn [fst snd] in *.
    destruct (spec_run cmp ops m) as [m2 l]. cbn [fst snd] in *. exists tc2. auto.
Qed.

Lemma good_init : good core_init.
Proof. split; [constructor|]; cbn; try constructor; auto. exists 0%nat. reflexivity. Qed.
End P.
