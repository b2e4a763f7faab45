(** hare and tortoise loops that do not change the heap *)
From Coq Require Import List Bool ZArith Lia.
From Verif Require Import Outcome ListModel ListSpec ListProofs.
Import ListNotations.
Ltac Zify.zify_post_hook ::= idtac.
Local Opaque ncdr.

Section L.
Variable h : heap.
Hypothesis C : closed h.

Lemma cdr_x : forall v n, in_heap h v -> pairp (ncdr h n v) = true -> cdr h (ncdr h n v) = Ok (ncdr h (S n) v).
Proof. intros. apply cdr_ncdr; auto. apply preserved_refl. Qed.
Lemma twice : forall v i, ncdr h (S (S (2 * i))) v = ncdr h (2 * S i) v.
Proof. intros. f_equal. lia. Qed.
Lemma pair_not_null : forall v, pairp v = true -> nullp v = false.
Proof. intros [| |]; cbn; auto; discriminate. Qed.

Definition len_answer (al : bool) (n : nat) (t : val) : Z := if nullp t || al then Z.of_nat n else (-1)%Z.

Lemma length2_finite : forall v n al, in_heap h v -> finite h v n -> forall fuel i, 2 * i <= n -> n - 2 * i < 2 * fuel ->
  length2_loop fuel h al (ncdr h (2 * i) v) (ncdr h i v) (Z.of_nat (2 * i)) = Ok (len_answer al n (ncdr h n v)).
Proof.
  intros v n al I F. induction fuel as [|fuel IH]; intros i L1 L2; [lia|]. cbn [length2_loop]. destruct F as [F1 F2].
  destruct (Nat.eq_dec (2 * i) n) as [E|NE].
  - rewrite E. rewrite F2. unfold len_answer. destruct (ncdr h n v); cbn [nullp negb orb pairp] in *; try discriminate; auto.
  - assert (P0 : pairp (ncdr h (2 * i) v) = true) by (apply F1; lia).
    rewrite P0, (pair_not_null _ P0), cdr_x by auto. cbn [negb bind].
    destruct (Nat.eq_dec (S (2 * i)) n) as [E|NE2].
    + rewrite E. rewrite F2. unfold len_answer.
      replace (Z.of_nat (2 * i) + 1)%Z with (Z.of_nat n) by lia.
      destruct (ncdr h n v); cbn [nullp negb orb pairp] in *; try discriminate; auto.
    + assert (P1 : pairp (ncdr h (S (2 * i)) v) = true) by (apply F1; lia).
      rewrite P1, (pair_not_null _ P1), !cdr_x by (auto; apply F1; lia). cbn [negb bind]. rewrite twice.
      destruct (val_eqb _ _) eqn:Ev.
      * apply val_eqb_eq in Ev. exfalso. apply (meet_only_endless h v n (S i)); auto; try lia. split; auto.
      * replace (Z.of_nat (2 * i) + 1 + 1)%Z with (Z.of_nat (2 * S i)) by lia. apply IH; lia.
Qed.
Lemma length2_endless : forall v al m, in_heap h v -> endless h v -> ncdr h (2 * m) v = ncdr h m v -> forall fuel i z, i < m -> m - i <= fuel ->
  length2_loop fuel h al (ncdr h (2 * i) v) (ncdr h i v) z = Ok (-2)%Z.
Proof.
  intros v al m I E M. induction fuel as [|fuel IH]; intros i z L1 L2; [lia|]. cbn [length2_loop].
  rewrite (E (2 * i)), (pair_not_null _ (E (2 * i))), cdr_x by auto. cbn [negb bind].
  rewrite (E (S (2 * i))), (pair_not_null _ (E (S (2 * i)))), !cdr_x by auto. cbn [negb bind]. rewrite twice.
  destruct (val_eqb _ _) eqn:Ev; auto. apply val_eqb_neq in Ev.
  assert (S i <> m) by congruence. apply IH; lia.
Qed.
Lemma length2_ok : forall v al, in_heap h v ->
  (exists n, n <= length h /\ finite h v n /\ scm_length2 h al v = Ok (len_answer al n (ncdr h n v))) \/
  (endless h v /\ scm_length2 h al v = Ok (-2)%Z).
Proof.
  intros v al I. destruct (finite_or_endless h v C I) as [(n & L & F)|E].
  - left. exists n. split; auto. split; auto. apply (length2_finite v n al I F (S (length h)) 0); lia.
  - right. split; auto. destruct (meet h v C I E) as (m & M1 & M2 & M3).
    apply (length2_endless v al m I E M3 (S (length h)) 0); lia.
Qed.

(** *** comparing lengths *)
Definition eshape (v : val) (e : option nat) : Prop := match e with Some n => finite h v n /\ n <= length h | None => endless h v end.
Lemma eshape_total : forall v, in_heap h v -> exists e, eshape v e.
Proof. intros v I. destruct (finite_or_endless h v C I) as [(n & L & F)|E]; [exists (Some n)|exists None]; cbn; auto. Qed.
Definition ble (k : nat) (e : option nat) : Prop := match e with Some n => k <= n | None => True end.
Lemma eshape_pair : forall v e k, eshape v e -> ble (S k) e -> pairp (ncdr h k v) = true.
Proof. intros v [n|] k H L; cbn in *; [apply H; lia|apply H]. Qed.
Lemma eshape_end : forall v n, eshape v (Some n) -> pairp (ncdr h n v) = false.
Proof. intros v n [[_ H] _]. exact H. Qed.
Lemma eshape_case : forall v e k, eshape v e -> ble k e -> (e = Some k /\ pairp (ncdr h k v) = false) \/ (ble (S k) e /\ pairp (ncdr h k v) = true).
Proof.
  intros v [n|] k H L; cbn in L.
  - destruct (Nat.eq_dec n k) as [->|]; [left|right]; split; auto; [now apply eshape_end|cbn; lia|]. eapply eshape_pair; eauto. cbn. lia.
  - right. split; cbn; auto.
Qed.
Lemma ecompare_end_l : forall k e, ble k e -> ecompare (Some k) e = if match e with Some n => Nat.eqb n k | None => false end then 0%Z else (-1)%Z.
Proof.
  intros k [n|] L; cbn in *; auto. destruct (Nat.eqb_spec n k) as [->|N]; [now rewrite Nat.compare_refl|].
  destruct (Nat.compare_spec k n); auto; lia.
Qed.

Definition met (v : val) (c : bool) (i : nat) : Prop :=
  if c then endless h v else endless h v -> exists m, i < m /\ m <= length h /\ ncdr h (2 * m) v = ncdr h m v.
Lemma met_step : forall v c i e, in_heap h v -> eshape v e -> ble (2 * S i) e -> met v c i ->
  met v (if val_eqb (ncdr h (2 * S i) v) (ncdr h (S i) v) then true else c) (S i).
Proof.
  intros v c i e I H L M. destruct (val_eqb _ _) eqn:E.
  - apply val_eqb_eq in E. cbn. destruct e as [n|]; auto. exfalso. destruct H as [F _]. apply (meet_only_endless h v n (S i) F); auto; lia.
  - destruct c; cbn [met] in *; auto. intro En. destruct (M En) as (m & A & B & D). exists m. split; auto.
    apply val_eqb_neq in E. destruct (Nat.eq_dec m (S i)) as [->|]; [congruence|lia].
Qed.
Lemma met_init : forall v, in_heap h v -> met v false 0.
Proof. intros v I E. destruct (meet h v C I E) as (m & A & B & D). exists m. split; auto. Qed.

Lemma length_cmp_lis_ok : forall v1 v2 e1 e2, in_heap h v1 -> in_heap h v2 -> eshape v1 e1 -> eshape v2 e2 ->
  forall fuel i c1 c2, ble (2 * i) e1 -> ble (2 * i) e2 -> S (length h) <= i + fuel -> met v1 c1 i -> met v2 c2 i -> c1 && c2 = false ->
  length_cmp_lis_loop fuel h (ncdr h (2 * i) v1) (ncdr h i v1) (ncdr h (2 * i) v2) (ncdr h i v2) c1 c2 = Ok (ecompare e1 e2).
Proof.
  intros v1 v2 e1 e2 I1 I2 H1 H2. induction fuel as [|fuel IH]; intros i c1 c2 L1 L2 Lf M1 M2 Hc.
  - exfalso. destruct e1 as [n1|]; [destruct H1; cbn in L1; lia|]. destruct e2 as [n2|]; [destruct H2; cbn in L2; lia|].
    destruct c1; [destruct c2; [discriminate|]|].
    + destruct (M2 H2) as (m & A & B & D). lia.
    + destruct (M1 H1) as (m & A & B & D). lia.
  - cbn [length_cmp_lis_loop].
    destruct (eshape_case v1 e1 _ H1 L1) as [[-> P1]|[L1' P1]]; rewrite P1; cbn [negb].
    { rewrite ecompare_end_l by auto. destruct (eshape_case v2 e2 _ H2 L2) as [[-> P2]|[L2' P2]]; rewrite P2.
      - now rewrite Nat.eqb_refl.
      - destruct e2 as [n2|]; auto. cbn in L2'. destruct (Nat.eqb_spec n2 (2 * i)); auto. lia. }
    destruct (eshape_case v2 e2 _ H2 L2) as [[-> P2]|[L2' P2]]; rewrite P2; cbn [negb].
    { destruct e1 as [n1|]; auto. cbn in L1'. cbn. destruct (Nat.compare_spec n1 (i + (i + 0))); auto; lia. }
    rewrite !cdr_x by auto. cbn [bind].
    destruct (eshape_case v1 e1 _ H1 L1') as [[-> Q1]|[L1'' Q1]]; rewrite Q1; cbn [negb].
    { rewrite ecompare_end_l by auto. destruct (eshape_case v2 e2 _ H2 L2') as [[-> Q2]|[L2'' Q2]]; rewrite Q2.
      - now rewrite Nat.eqb_refl.
      - destruct e2 as [n2|]; auto. cbn in L2''. destruct (Nat.eqb_spec n2 (S (2 * i))); auto. lia. }
    destruct (eshape_case v2 e2 _ H2 L2') as [[-> Q2]|[L2'' Q2]]; rewrite Q2; cbn [negb].
    { destruct e1 as [n1|]; auto. cbn in L1''. cbn. destruct (Nat.compare_spec n1 (S (i + (i + 0)))); auto; lia. }
    assert (R1 : pairp (ncdr h i v1) = true) by (eapply eshape_pair; eauto; destruct e1; cbn in *; auto; lia).
    assert (R2 : pairp (ncdr h i v2) = true) by (eapply eshape_pair; eauto; destruct e2; cbn in *; auto; lia).
    rewrite !cdr_x by auto. cbn [bind]. rewrite !twice.
    assert (B1 : ble (2 * S i) e1) by (destruct e1; cbn in *; auto; lia).
    assert (B2 : ble (2 * S i) e2) by (destruct e2; cbn in *; auto; lia).
    pose proof (met_step v1 c1 i e1 I1 H1 B1 M1) as M1'. pose proof (met_step v2 c2 i e2 I2 H2 B2 M2) as M2'.
    set (d1 := if val_eqb (ncdr h (2 * S i) v1) (ncdr h (S i) v1) then true else c1) in *.
    set (d2 := if val_eqb (ncdr h (2 * S i) v2) (ncdr h (S i) v2) then true else c2) in *.
    destruct (d1 && d2) eqn:Hd.
    + apply andb_true_iff in Hd. destruct Hd as [X1 X2]. rewrite X1 in M1'. rewrite X2 in M2'. cbn in M1', M2'.
      destruct e1 as [n1|]; [exfalso; destruct H1; eapply finite_not_endless; eauto|].
      destruct e2 as [n2|]; [exfalso; destruct H2; eapply finite_not_endless; eauto|]. reflexivity.
    + apply IH; auto. lia.
Qed.

Lemma length_cmp_k_ok : forall v e, in_heap h v -> eshape v e ->
  forall fuel i k, (0 <= k)%Z -> ble (2 * i) e -> S (length h) <= i + fuel -> met v false i ->
  length_cmp_k_loop fuel h (ncdr h (2 * i) v) (ncdr h i v) k = Ok (zcompare e (k + Z.of_nat (2 * i))).
Proof.
  intros v e I H. induction fuel as [|fuel IH]; intros i k Hk L Lf M.
  - exfalso. destruct e as [n|]; [destruct H; cbn in L; lia|]. destruct (M H) as (m & A & B & D). lia.
  - cbn [length_cmp_k_loop].
    destruct (eshape_case v e _ H L) as [[-> P]|[L' P]]; rewrite P; cbn [negb].
    { cbn [zcompare]. destruct (Z.eqb_spec k 0); destruct (Z.compare_spec (Z.of_nat (2 * i)) (k + Z.of_nat (2 * i))); auto; lia. }
    destruct (Z.leb_spec k 0).
    { destruct e as [n|]; auto. cbn [zcompare ble] in *. destruct (Z.compare_spec (Z.of_nat n) (k + Z.of_nat (2 * i))); auto; lia. }
    rewrite cdr_x by auto. cbn [bind].
    destruct (eshape_case v e _ H L') as [[-> Q]|[L'' Q]]; rewrite Q; cbn [negb].
    { cbn [zcompare]. destruct (Z.eqb_spec (k - 1) 0); destruct (Z.compare_spec (Z.of_nat (S (2 * i))) (k + Z.of_nat (2 * i))); auto; lia. }
    destruct (Z.eqb_spec (k - 1) 0).
    { destruct e as [n|]; auto. cbn [zcompare ble] in *. destruct (Z.compare_spec (Z.of_nat n) (k + Z.of_nat (2 * i))); auto; lia. }
    assert (R : pairp (ncdr h i v) = true) by (eapply eshape_pair; eauto; destruct e; cbn in *; auto; lia).
    rewrite !cdr_x by auto. cbn [bind]. rewrite twice.
    assert (B : ble (2 * S i) e) by (destruct e; cbn in *; auto; lia).
    pose proof (met_step v false i e I H B M) as M'.
    destruct (val_eqb _ _).
    + cbn in M'. destruct e as [n0|]; auto. exfalso. destruct H. eapply finite_not_endless; eauto.
    + rewrite IH by (auto; lia). f_equal. f_equal. lia.
Qed.

(** *** num-pairs *)
Lemma num_pairs_finite : forall v n, in_heap h v -> finite h v n -> forall fuel i, 2 * i <= n -> n - 2 * i < 2 * fuel ->
  num_pairs_loop fuel h v (Z.of_nat (2 * i)) (ncdr h i v) (ncdr h (2 * i) v) = Ok (Z.of_nat n).
Proof.
  intros v n I F. induction fuel as [|fuel IH]; intros i L1 L2; [lia|]. cbn [num_pairs_loop]. destruct F as [F1 F2].
  destruct (Nat.eq_dec (2 * i) n) as [E|NE].
  - rewrite E, F2. reflexivity.
  - rewrite (F1 (2 * i)) by lia. rewrite cdr_x by (auto; apply F1; lia). cbn [bind].
    destruct (Nat.eq_dec (S (2 * i)) n) as [E|NE2].
    + rewrite E, F2. f_equal. lia.
    + rewrite (F1 (S (2 * i))) by lia. destruct (val_eqb _ _) eqn:Ev.
      * apply val_eqb_eq in Ev. exfalso. revert Ev. apply (finite_distinct h v n); auto; lia.
      * rewrite !cdr_x by (auto; apply F1; lia). cbn [bind]. rewrite twice.
        replace (Z.of_nat (2 * i) + 2)%Z with (Z.of_nat (2 * S i)) by lia. apply IH; lia.
Qed.
(** the hare is one ahead here: meeting point x_m = x_(2m+1) *)
Lemma meet_odd : forall v, in_heap h v -> endless h v -> exists m, m <= length h /\ ncdr h (S (2 * m)) v = ncdr h m v.
Proof.
  intros v I E. destruct (meet h v C I E) as (m & A & B & D).
  destruct (repeat_within h v C I) as (i & j & A1 & B1 & E1); [intros; apply E|].
  (* choose k with k >= i and k + 1 a multiple of lam *)
  set (lam := j - i).
  pose proof (Nat.div_mod (i + lam) lam ltac:(unfold lam; lia)) as Dv.
  pose proof (Nat.mod_upper_bound (i + lam) lam ltac:(unfold lam; lia)) as U.
  set (q := (i + lam) / lam) in *.
  assert (q >= 1) by (unfold lam in *; nia).
  exists (q * lam - 1).
  assert (i + 1 <= q * lam <= j) by (unfold lam in *; nia).
  split; [lia|]. symmetry.
  replace (ncdr h (q * lam - 1) v) with (ncdr h (q * lam - 1 + q * (j - i)) v).
  2:{ symmetry. apply (period_mul h v i j (q * lam - 1) q); auto; lia. }
  f_equal. fold lam. lia.
Qed.
(** counting the distinct pairs of a circle *)
Lemma count_circle_ok : forall v, in_heap h v -> endless h v -> forall fuel k seen,
  NoDup seen -> seen = map (fun i => ncdr h i v) (rev (seq 0 k)) -> S (length h) <= k + fuel -> k <= length h ->
  exists p, k <= p /\ p <= length h /\ count_circle fuel h seen (ncdr h k v) = Ok (Z.of_nat p) /\
    NoDup (map (fun i => ncdr h i v) (seq 0 p)) /\ In (ncdr h p v) (map (fun i => ncdr h i v) (seq 0 p)).
Proof.
  intros v I E. induction fuel as [|fuel IH]; intros k seen N Es L Lk.
  - exfalso. lia.
  - cbn [count_circle]. destruct (existsb (val_eqb (ncdr h k v)) seen) eqn:Ex.
    + exists k. apply existsb_exists in Ex. destruct Ex as (x & Hx & Hv). apply val_eqb_eq in Hv. subst x.
      split; [lia|]. split; [lia|]. split.
      { rewrite Es, map_length, rev_length, seq_length. reflexivity. }
      split.
      * rewrite Es, map_rev in N. apply NoDup_rev in N. now rewrite rev_involutive in N.
      * rewrite Es, map_rev in Hx. now apply in_rev.
    + rewrite cdr_x by auto. cbn [bind].
      assert (N' : NoDup (ncdr h k v :: seen)).
      { constructor; auto. intro Hin. rewrite <- not_true_iff_false in Ex. apply Ex. apply existsb_exists. eexists; split; eauto. now apply val_eqb_eq. }
      assert (Es' : ncdr h k v :: seen = map (fun i => ncdr h i v) (rev (seq 0 (S k)))).
      { rewrite seq_S, rev_app_distr. cbn. now rewrite Es. }
      assert (k < length h).
      { destruct (le_lt_dec (length h) k); auto. exfalso.
        assert (Hincl : incl (map addr (ncdr h k v :: seen)) (seq 0 (length h))).
        { intros a Ha. apply in_map_iff in Ha. destruct Ha as (w & <- & Hw). rewrite Es' in Hw. apply in_map_iff in Hw. destruct Hw as (q & <- & _).
          pose proof (ncdr_in h q v C I) as X. pose proof (E q) as Y. destruct (ncdr h q v); try discriminate. cbn in *. apply in_seq. lia. }
        apply NoDup_incl_length in Hincl.
        - rewrite map_length, Es', map_length, rev_length, !seq_length in Hincl. lia.
        - rewrite Es' in *. clear - N' E.
          assert (G : forall l, NoDup (map (fun i => ncdr h i v) l) -> NoDup (map addr (map (fun i => ncdr h i v) l))).
          { induction l as [|q l IHl]; cbn; intro N; [constructor|]. inversion N; subst. constructor; auto.
            intro Hin. apply H1. apply in_map_iff in Hin. destruct Hin as (w & Hw & Hin). 
            assert (w = ncdr h q v); [|now subst].
            apply in_map_iff in Hin. destruct Hin as (r & <- & _).
            pose proof (E q) as Y1. pose proof (E r) as Y2. destruct (ncdr h q v), (ncdr h r v); try discriminate. cbn in Hw. now subst. }
          now apply G. }
      destruct (IH (S k) _ N' Es') as (p & A & B & R & D1 & D2); try lia. exists p. repeat split; auto. lia.
Qed.
Lemma num_pairs_endless : forall v m, in_heap h v -> endless h v -> ncdr h (S (2 * m)) v = ncdr h m v -> forall fuel i z, i <= m -> m - i < fuel ->
  num_pairs_loop fuel h v z (ncdr h i v) (ncdr h (2 * i) v) = count_circle (S (length h)) h [] v.
Proof.
  intros v m I E M. induction fuel as [|fuel IH]; intros i z L1 L2; [lia|]. cbn [num_pairs_loop].
  rewrite (E (2 * i)), cdr_x by auto. cbn [bind]. rewrite (E (S (2 * i))).
  destruct (val_eqb _ _) eqn:Ev; auto. apply val_eqb_neq in Ev.
  rewrite !cdr_x by auto. cbn [bind]. rewrite twice.
  assert (i <> m) by congruence. apply IH; lia.
Qed.

(** *** last-pair *)
Lemma last_pair_finite : forall v n, in_heap h v -> finite h v n -> forall fuel i, 2 * i < n -> n - 2 * i <= 2 * fuel ->
  last_pair_loop fuel h (ncdr h (2 * i) v) (ncdr h i v) = Ok (ncdr h (n - 1) v).
Proof.
  intros v n I F. induction fuel as [|fuel IH]; intros i L1 L2; [lia|]. cbn [last_pair_loop]. destruct F as [F1 F2].
  rewrite cdr_x by (auto; apply F1; lia). cbn [bind].
  destruct (Nat.eq_dec (S (2 * i)) n) as [E|NE].
  - rewrite E, F2. cbn [negb]. f_equal. f_equal. lia.
  - rewrite (F1 (S (2 * i))) by lia. cbn [negb]. rewrite cdr_x by (auto; apply F1; lia). cbn [bind]. rewrite twice.
    destruct (Nat.eq_dec (2 * S i) n) as [E|NE2].
    + rewrite E, F2. cbn [negb]. f_equal. f_equal. lia.
    + rewrite (F1 (2 * S i)) by lia. cbn [negb]. rewrite cdr_x by (auto; apply F1; lia). cbn [bind].
      destruct (val_eqb _ _) eqn:Ev.
      * apply val_eqb_eq in Ev. exfalso. apply (meet_only_endless h v n (S i)); auto; try lia. split; auto.
      * apply IH; lia.
Qed.
Lemma last_pair_endless : forall v m, in_heap h v -> endless h v -> ncdr h (2 * m) v = ncdr h m v -> forall fuel i, i < m -> m - i <= fuel ->
  last_pair_loop fuel h (ncdr h (2 * i) v) (ncdr h i v) = Err.
Proof.
  intros v m I E M. induction fuel as [|fuel IH]; intros i L1 L2; [lia|]. cbn [last_pair_loop].
  rewrite cdr_x by auto. cbn [bind]. rewrite (E (S (2 * i))). cbn [negb]. rewrite cdr_x by auto. cbn [bind]. rewrite twice, (E (2 * S i)). cbn [negb].
  rewrite cdr_x by auto. cbn [bind]. destruct (val_eqb _ _) eqn:Ev; auto. apply val_eqb_neq in Ev.
  assert (S i <> m) by congruence. apply IH; lia.
Qed.
End L.
