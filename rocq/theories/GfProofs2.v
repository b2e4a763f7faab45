(** The dispatch table: a hash table with triangular probing. *)
From Coq Require Import List Bool Arith ZArith Lia Znumtheory Zpow_facts.
From Verif Require Import GfModel GfSpec GfProofs.
Import ListNotations.
Local Open Scope nat_scope.

(** the probe sequence visits every slot of a table whose size is a power of 2 *)
Fixpoint pos (sz s i : nat) : nat := match i with O => s | S i' => next sz (pos sz s i') i' end.
Fixpoint tri (i : nat) : nat := match i with O => 0 | S i' => tri i' + i' + 1 end.
Lemma pos_tri sz s i : s < sz -> pos sz s i = (s + tri i) mod sz.
Proof.
  intro L. induction i as [|i IH]; cbn [pos tri]; [rewrite Nat.add_0_r, Nat.mod_small; auto|].
  unfold next. rewrite IH. rewrite <- (Nat.add_assoc _ i 1), Nat.add_mod_idemp_l by lia. f_equal. lia.
Qed.
Lemma pos_lt sz s i : s < sz -> pos sz s i < sz.
Proof. intro L. rewrite pos_tri by auto. apply Nat.mod_upper_bound. lia. Qed.
Lemma tri_2 i : (2 * Z.of_nat (tri i) = Z.of_nat i * (Z.of_nat i + 1))%Z.
Proof. induction i as [|i IH]; cbn [tri]; lia. Qed.
Local Open Scope Z_scope.
Lemma odd_prime_pow p a : 0 <= p -> Z.odd a = true -> rel_prime (2 ^ p) a.
Proof.
  intros P O. apply rel_prime_sym, rel_prime_Zpower_r; auto. apply rel_prime_sym. apply prime_rel_prime; [apply prime_2|].
  intros (q & E). rewrite E, Z.odd_mul in O. rewrite andb_comm in O. discriminate.
Qed.
Lemma tri_inj p s i j : 0 <= p -> 0 <= i -> i < j -> j < 2 ^ p -> (2 ^ p | s + j - (s + i)) -> False.
Proof. intros P A B C (q & E). assert (0 < j - i < 2 ^ p) by lia. assert (q <= 0 \/ 1 <= q) as [Q|Q] by lia; nia. Qed.
Lemma tri_diff p i j ti tj : 0 <= p -> 0 <= i -> i < j -> j < 2 ^ p -> 2 * ti = i * (i + 1) -> 2 * tj = j * (j + 1) ->
  (2 ^ p | tj - ti) -> False.
Proof.
  intros P A B C Ti Tj (q & E).
  assert (D : (2 ^ (p + 1) | (j - i) * (i + j + 1))).
  { exists q. rewrite Z.pow_add_r by lia. change (2 ^ 1) with 2. nia. }
  assert (PW : 2 ^ (p + 1) = 2 * 2 ^ p) by (rewrite Z.pow_add_r by lia; lia).
  destruct (Z.odd (j - i)) eqn:O.
  - apply Gauss in D; [|apply odd_prime_pow; [lia|exact O]]. apply Z.divide_pos_le in D; lia.
  - assert (O' : Z.odd (i + j + 1) = true).
    { replace (i + j + 1) with ((j - i) + (1 + 2 * i)) by lia. rewrite Z.odd_add, O. rewrite Z.odd_add, Z.odd_mul. reflexivity. }
    rewrite Z.mul_comm in D. apply Gauss in D; [|apply odd_prime_pow; [lia|exact O']]. apply Z.divide_pos_le in D; lia.
Qed.
Local Close Scope Z_scope.
Lemma pos_inj p s i j : s < 2 ^ p -> i < 2 ^ p -> j < 2 ^ p -> pos (2 ^ p) s i = pos (2 ^ p) s j -> i = j.
Proof.
  intros S0 I J. rewrite !pos_tri by auto. intro E.
  assert (G : forall a b, a < b -> b < 2 ^ p -> (s + tri a) mod 2 ^ p = (s + tri b) mod 2 ^ p -> False).
  { intros a b AB B Q. pose proof (tri_2 a) as Ta. pose proof (tri_2 b) as Tb.
    assert (PZ : Z.of_nat (2 ^ p) = (2 ^ Z.of_nat p)%Z) by (rewrite Nat2Z.inj_pow; reflexivity).
    apply (tri_diff (Z.of_nat p) (Z.of_nat a) (Z.of_nat b) (Z.of_nat (tri a)) (Z.of_nat (tri b))); try lia.
    apply (f_equal Z.of_nat) in Q. rewrite !Nat2Z.inj_mod, PZ in Q by lia.
    assert (NZ : (0 < 2 ^ Z.of_nat p)%Z) by (apply Z.pow_pos_nonneg; lia).
    replace (Z.of_nat (tri b) - Z.of_nat (tri a))%Z with (Z.of_nat (s + tri b) - Z.of_nat (s + tri a))%Z by lia.
    apply Z.mod_divide; [lia|]. rewrite Zminus_mod, Q, Z.sub_diag. apply Z.mod_0_l. lia. }
  destruct (Nat.lt_trichotomy i j) as [L|[L|L]]; auto; exfalso; eapply G; eauto.
Qed.
Lemma map_nodup {A B} (f : A -> B) l : (forall a b, In a l -> In b l -> f a = f b -> a = b) -> NoDup l -> NoDup (map f l).
Proof.
  induction l as [|a l IH]; intros I N; cbn; constructor; inversion N; subst.
  - intro J. apply in_map_iff in J. destruct J as (b & E & J). assert (b = a) as -> by (apply I; cbn; auto). contradiction.
  - apply IH; auto. intros x y X Y. apply I; cbn; auto.
Qed.
Lemma pos_onto p s j : s < 2 ^ p -> j < 2 ^ p -> exists i, i < 2 ^ p /\ pos (2 ^ p) s i = j.
Proof.
  intros S0 J. set (N := 2 ^ p) in *. set (l := map (pos N s) (seq 0 N)).
  assert (ND : NoDup l).
  { apply map_nodup; [|apply seq_NoDup]. intros a b A B E. apply in_seq in A, B. unfold N in *. eapply (pos_inj p s); eauto; lia. }
  assert (I : incl (seq 0 N) l).
  { apply NoDup_length_incl; auto; [unfold l; rewrite map_length, seq_length; auto|].
    intros x X. apply in_map_iff in X. destruct X as (i & <- & _). apply in_seq. split; [lia|]. cbn. apply pos_lt; auto. }
  destruct (proj1 (in_map_iff _ _ _) (I j ltac:(apply in_seq; lia))) as (i & E & Q). apply in_seq in Q. exists i. split; auto; lia.
Qed.

(** tables without deleted entries *)
Definition is_key (b : bin) (k : option class) (n : nat) : bool := match b with Ent k' n' _ _ => keq k' k && (n' =? n) | _ => false end.
Lemma keq_true a b : keq a b = true <-> a = b.
Proof. destruct a, b; cbn; try (split; congruence). rewrite Z.eqb_eq. split; congruence. Qed.
Lemma is_key_true b k n : is_key b k n = true <-> exists lv nl, b = Ent k n lv nl.
Proof.
  destruct b as [| |k' n' lv nl]; cbn; try (split; [discriminate|intros (a & c & E); discriminate]).
  rewrite andb_true_iff, keq_true, Nat.eqb_eq. split; [intros (-> & ->); eauto|intros (a & c & E); inversion E; auto].
Qed.
Definition at_ (bs : list bin) k n i : bin := nth (pos (length bs) (start k n (length bs)) i) bs Free.
(** the probe for (k,n) ends at its i-th slot *)
Definition stops (bs : list bin) k n i : Prop :=
  i < length bs /\ (forall i', i' < i -> exists k' n' lv nl, at_ bs k n i' = Ent k' n' lv nl /\ is_key (at_ bs k n i') k n = false) /\
  (at_ bs k n i = Free \/ is_key (at_ bs k n i) k n = true).
Definition cnt (bs : list bin) : nat := length (filter (fun b => match b with Ent _ _ _ _ => true | _ => false end) bs).
Record good (bs : list bin) : Prop := {
  g_pow : exists p, length bs = 2 ^ p;
  g_del : forall j, nth j bs Free <> Del;
  g_ent : forall j k n lv nl, nth j bs Free = Ent k n lv nl -> exists i, stops bs k n i /\ pos (length bs) (start k n (length bs)) i = j
}.
Lemma start_lt k n sz : 0 < sz -> start k n sz < sz.
Proof. intro L. unfold start. pose proof (Z.mod_pos_bound (mhashfn k n) (Z.of_nat sz) ltac:(lia)). lia. Qed.
Lemma len_pos bs : good bs -> 0 < length bs.
Proof. intros G. destruct (g_pow _ G) as (p & ->). assert (2 ^ p <> 0) by (apply Nat.pow_nonzero; lia). lia. Qed.
Lemma free_exists bs : (forall j, nth j bs Free <> Del) -> cnt bs < length bs -> exists j, j < length bs /\ nth j bs Free = Free.
Proof.
  unfold cnt. induction bs as [|b bs IH]; cbn [length filter]; [lia|]. intros D L. destruct b as [| |k n lv nl].
  - exists 0. split; [lia|auto].
  - exfalso. apply (D 0). reflexivity.
  - destruct IH as (j & J & E); [intro j; apply (D (S j))|cbn [length] in L; lia|]. exists (S j). split; [lia|auto].
Qed.
Lemma least (P : nat -> bool) : forall n, P n = true -> exists m, m <= n /\ P m = true /\ forall k, k < m -> P k = false.
Proof.
  intro n. induction n as [n IH] using lt_wf_ind. intro H. destruct (existsb P (seq 0 n)) eqn:E.
  - apply existsb_exists in E. destruct E as (x & I & Px). apply in_seq in I. destruct (IH x ltac:(lia) Px) as (m & A & B & C). exists m. repeat split; auto; lia.
  - exists n. repeat split; auto. intros k L. destruct (P k) eqn:Q; auto. rewrite <- E. symmetry. apply existsb_exists. exists k. split; auto. apply in_seq. lia.
Qed.
Lemma stops_ex bs k n : good bs -> cnt bs < length bs -> exists i, stops bs k n i.
Proof.
  intros G C. destruct (free_exists bs (g_del _ G) C) as (j & J & E). destruct (g_pow _ G) as (p & PW).
  destruct (pos_onto p (start k n (length bs)) j) as (i & L & Q); try (rewrite <- PW; auto; apply start_lt; apply len_pos; auto).
  rewrite <- PW in L, Q.
  destruct (least (fun i => match at_ bs k n i with Free => true | b => is_key b k n end) i) as (m & A & B & D).
  { unfold at_. now rewrite Q, E. }
  exists m. split; [lia|]. split.
  - intros i' L'. specialize (D i' L'). pose proof (g_del _ G (pos (length bs) (start k n (length bs)) i')) as ND. fold (at_ bs k n i') in ND.
    destruct (at_ bs k n i') as [| |k' n' lv nl] eqn:EA; try discriminate; [contradiction|]. exists k', n', lv, nl. auto.
  - destruct (at_ bs k n m) eqn:EA; auto; try discriminate.
Qed.
Lemma stops_unique bs k n i j : stops bs k n i -> stops bs k n j -> i = j.
Proof.
  intros (A1 & A2 & A3) (B1 & B2 & B3). destruct (Nat.lt_trichotomy i j) as [L|[L|L]]; auto; exfalso.
  - destruct (B2 i L) as (k' & n' & lv & nl & E1 & E2). destruct A3 as [A3|A3]; congruence.
  - destruct (A2 j L) as (k' & n' & lv & nl & E1 & E2). destruct B3 as [B3|B3]; congruence.
Qed.
(** the loops of the code run along the probe sequence *)
Lemma find_slot_spec h k n i0 : stops (bins h) k n i0 -> forall d i fuel, i0 - i = d -> i <= i0 -> i0 < i + fuel ->
  find_slot h k n fuel i (pos (size h) (start k n (size h)) i) None =
  match at_ (bins h) k n i0 with
  | Ent _ _ lv nl => (Some (pos (size h) (start k n (size h)) i0), lv, nl, true)
  | _ => (Some (pos (size h) (start k n (size h)) i0), [], [], false)
  end.
Proof.
  intros (A & B & C). induction d as [|d IH]; intros i fuel D L F; (destruct fuel as [|f]; [lia|]); cbn [find_slot];
    change (nth (pos (size h) (start k n (size h)) i) (bins h) Free) with (at_ (bins h) k n i).
  - assert (i = i0) as -> by lia. destruct C as [C|C]; [now rewrite C|]. destruct (at_ (bins h) k n i0) eqn:E; cbn in C; try discriminate.
    now rewrite C.
  - destruct (B i ltac:(lia)) as (k' & n' & lv & nl & E1 & E2). rewrite E1 in *. cbn in E2. rewrite E2.
    apply (IH (S i) f); lia.
Qed.
Lemma probe_spec h k n i0 : stops (bins h) k n i0 -> forall d i fuel, i0 - i = d -> i <= i0 -> i0 < i + fuel ->
  probe h k n fuel i (pos (size h) (start k n (size h)) i) =
  match at_ (bins h) k n i0 with Ent _ _ lv [] => Some lv | _ => None end.
Proof.
  intros (A & B & C). induction d as [|d IH]; intros i fuel D L F; (destruct fuel as [|f]; [lia|]); cbn [probe];
    change (nth (pos (size h) (start k n (size h)) i) (bins h) Free) with (at_ (bins h) k n i).
  - assert (i = i0) as -> by lia. destruct C as [C|C]; [now rewrite C|]. destruct (at_ (bins h) k n i0) eqn:E; cbn in C; try discriminate.
    rewrite C. auto.
  - destruct (B i ltac:(lia)) as (k' & n' & lv & nl & E1 & E2). rewrite E1 in *. cbn in E2. rewrite E2.
    apply (IH (S i) f); lia.
Qed.
Lemma rehash_slot_spec bs k n i0 : stops bs k n i0 -> at_ bs k n i0 = Free -> length bs > 0 -> forall d i fuel, i0 - i = d -> i <= i0 -> i0 < i + fuel ->
  rehash_slot bs fuel i (pos (length bs) (start k n (length bs)) i) = Some (pos (length bs) (start k n (length bs)) i0).
Proof.
  intros (A & B & C) FR LP. assert (DF : forall i, nth (pos (length bs) (start k n (length bs)) i) bs Del = at_ bs k n i).
  { intro i. unfold at_. apply nth_indep. apply pos_lt, start_lt. lia. }
  induction d as [|d IH]; intros i fuel D L F; (destruct fuel as [|f]; [lia|]); cbn [rehash_slot]; rewrite DF.
  - assert (i = i0) as -> by lia. now rewrite FR.
  - destruct (B i ltac:(lia)) as (k' & n' & lv & nl & E1 & E2). rewrite E1. apply (IH (S i) f); lia.
Qed.
Lemma nth_setnth bs j b k : j < length bs -> nth k (setnth bs j b) Free = if k =? j then b else nth k bs Free.
Proof.
  intro J. rewrite !nth_default_eq || idtac. destruct (Nat.eqb_spec k j) as [->|NE].
  - apply nth_error_nth. rewrite setnth_nth, Nat.eqb_refl. destruct (Nat.ltb_spec j (length bs)); [auto|lia].
  - assert (E : nth_error (setnth bs j b) k = nth_error bs k) by (rewrite setnth_nth; destruct (Nat.eqb_spec k j); congruence).
    destruct (nth_error bs k) as [x|] eqn:X.
    + rewrite (nth_error_nth _ _ _ E), (nth_error_nth _ _ _ X). auto.
    + apply nth_error_None in E, X. rewrite !nth_overflow; auto.
Qed.
(** writing an entry where its probe ends *)
Lemma put_good bs k n i lv nl : good bs -> stops bs k n i ->
  good (setnth bs (pos (length bs) (start k n (length bs)) i) (Ent k n lv nl)).
Proof.
  intros G ST. set (j := pos (length bs) (start k n (length bs)) i). set (bs' := setnth bs j (Ent k n lv nl)).
  assert (LB : length bs' = length bs) by apply setnth_length. assert (JL : j < length bs) by (apply pos_lt, start_lt, len_pos; auto).
  assert (NT : forall x, nth x bs' Free = if x =? j then Ent k n lv nl else nth x bs Free) by (intro x; now apply nth_setnth).
  assert (AT : forall k' n' x, at_ bs' k' n' x = if pos (length bs) (start k' n' (length bs)) x =? j then Ent k n lv nl else at_ bs k' n' x).
  { intros k' n' x. unfold at_. rewrite LB, NT. auto. }
  destruct ST as (S1 & S2 & S3).
  assert (own : stops bs' k n i).
  { split; [rewrite LB; auto|]. split.
    - intros i' L'. rewrite AT. destruct (Nat.eqb_spec (pos (length bs) (start k n (length bs)) i') j) as [E|NE]; [|auto].
      exfalso. destruct (g_pow _ G) as (p & PW). unfold j in E. rewrite PW in E. apply pos_inj in E; try lia. rewrite <- PW. apply start_lt, len_pos; auto.
    - right. rewrite AT. unfold j. rewrite Nat.eqb_refl. apply is_key_true. eauto. }
  split.
  - rewrite LB. apply (g_pow _ G).
  - intro x. rewrite NT. destruct (x =? j); [discriminate|apply (g_del _ G)].
  - intros x k' n' lv' nl' E. rewrite NT in E. destruct (Nat.eqb_spec x j) as [->|NE].
    + inversion E; subst. exists i. rewrite LB. auto.
    + destruct (g_ent _ G _ _ _ _ _ E) as (i' & (T1 & T2 & T3) & P'). exists i'. rewrite LB. split; auto.
      split; [rewrite LB; auto|]. split.
      * intros i'' L''. rewrite AT. destruct (Nat.eqb_spec (pos (length bs) (start k' n' (length bs)) i'') j) as [Q|NQ]; [|auto].
        exists k, n, lv, nl. split; auto. destruct (is_key (Ent k n lv nl) k' n') eqn:K; auto. exfalso.
        apply is_key_true in K. destruct K as (a & b & K). inversion K; subst k' n'.
        destruct (T2 i'' L'') as (k2 & n2 & a2 & b2 & T4 & T5). 
        assert (AI : at_ bs k n i'' = at_ bs k n i) by (unfold at_; rewrite Q; reflexivity).
        destruct S3 as [S3|S3]; congruence.
      * rewrite AT. rewrite P'. destruct (Nat.eqb_spec x j); [contradiction|]. exact T3.
Qed.
Definition has (bs : list bin) k n lv nl : Prop := In (Ent k n lv nl) bs.
Lemma has_nth bs k n lv nl : has bs k n lv nl <-> exists j, nth j bs Free = Ent k n lv nl.
Proof.
  split.
  - intro H. apply (In_nth _ _ Free) in H. destruct H as (j & _ & E). eauto.
  - intros (j & E). destruct (Nat.lt_ge_cases j (length bs)) as [L|L]; [unfold has; rewrite <- E; now apply nth_In|rewrite nth_overflow in E by auto; discriminate].
Qed.
(** an entry is where its probe ends *)
Lemma stop_has bs k n i lv nl : good bs -> stops bs k n i -> has bs k n lv nl -> at_ bs k n i = Ent k n lv nl.
Proof.
  intros G S0 H. apply has_nth in H. destruct H as (j & E). destruct (g_ent _ G _ _ _ _ _ E) as (i' & S1 & P).
  rewrite (stops_unique _ _ _ _ _ S0 S1). unfold at_. now rewrite P.
Qed.
Lemma at_has bs k n i lv nl : at_ bs k n i = Ent k n lv nl -> has bs k n lv nl.
Proof. intro E. apply has_nth. eexists. exact E. Qed.
Lemma put_has bs k n i lv nl : good bs -> stops bs k n i -> forall k' n' lv' nl',
  has (setnth bs (pos (length bs) (start k n (length bs)) i) (Ent k n lv nl)) k' n' lv' nl' <->
  (k' = k /\ n' = n /\ lv' = lv /\ nl' = nl) \/ (~ (k' = k /\ n' = n) /\ has bs k' n' lv' nl').
Proof.
  intros G ST k' n' lv' nl'. set (j := pos (length bs) (start k n (length bs)) i).
  assert (JL : j < length bs) by (apply pos_lt, start_lt, len_pos; auto).
  rewrite has_nth. split.
  - intros (x & E). rewrite nth_setnth in E by auto. destruct (Nat.eqb_spec x j) as [Qx|NE]; [inversion E; auto|].
    right. split; [|apply has_nth; eauto]. intros (-> & ->). destruct (g_ent _ G _ _ _ _ _ E) as (i' & S1 & P).
    rewrite (stops_unique _ _ _ _ _ S1 ST) in P. apply NE. symmetry. exact P.
  - intros [(-> & -> & -> & ->)|(N & H)].
    + exists j. rewrite nth_setnth, Nat.eqb_refl; auto.
    + apply has_nth in H. destruct H as (x & E). exists x. rewrite nth_setnth by auto. destruct (Nat.eqb_spec x j) as [->|NE]; auto.
      exfalso. apply N. destruct ST as (_ & _ & [S3|S3]); unfold at_ in S3; fold j in S3; [congruence|].
      rewrite E in S3. cbn in S3. apply andb_true_iff in S3. destruct S3 as (A & B). apply keq_true in A. apply Nat.eqb_eq in B. auto.
Qed.
Lemma setnth_cnt bs j b : j < length bs -> cnt (setnth bs j b) + (match nth j bs Free with Ent _ _ _ _ => 1 | _ => 0 end) =
  cnt bs + (match b with Ent _ _ _ _ => 1 | _ => 0 end).
Proof.
  unfold cnt. revert j; induction bs as [|a bs IH]; intros [|j] L; cbn [length] in L; try lia; cbn [setnth nth filter].
  - destruct a, b; cbn [length]; lia.
  - specialize (IH j ltac:(lia)). destruct a; cbn [length]; lia.
Qed.
Lemma repeat_good p : good (repeat Free (2 ^ p)).
Proof.
  assert (E : forall j, nth j (repeat Free (2 ^ p)) Free = Free) by (intro j; apply nth_repeat).
  split.
  - exists p. apply repeat_length.
  - intro j. rewrite E. discriminate.
  - intros j k n lv nl Q. rewrite E in Q. discriminate.
Qed.
Lemma cnt_repeat n : cnt (repeat Free n) = 0.
Proof. unfold cnt. induction n; cbn; auto. Qed.
(** rehashing *)
Fixpoint ents (l : list bin) : list (option class * nat) := match l with [] => [] | Ent k n _ _ :: r => (k, n) :: ents r | _ :: r => ents r end.
Lemma ents_in l k n : In (k, n) (ents l) <-> exists lv nl, has l k n lv nl.
Proof.
  unfold has. induction l as [|b l IH]; cbn; [split; [intros []|intros (a & c & [])]|]. destruct b as [| |k' n' lv nl]; cbn; rewrite ?IH.
  - split; [intros (a & c & H); eauto|intros (a & c & [H|H]); [discriminate|eauto]].
  - split; [intros (a & c & H); eauto|intros (a & c & [H|H]); [discriminate|eauto]].
  - split.
    + intros [H|(a & c & H)]; [inversion H; subst; eauto|eauto].
    + intros (a & c & [H|H]); [inversion H; subst; auto|eauto].
Qed.
Lemma rehash_spec old : forall bs, good bs -> NoDup (ents old) -> (forall k n, In (k, n) (ents old) -> ~ In (k, n) (ents bs)) ->
  cnt bs + cnt old < length bs ->
  exists bs', rehash bs old = Some bs' /\ good bs' /\ length bs' = length bs /\ cnt bs' = cnt bs + cnt old /\
    forall k n lv nl, has bs' k n lv nl <-> has bs k n lv nl \/ has old k n lv nl.
Proof.
  induction old as [|b old IH]; intros bs G ND DJ C; cbn [rehash].
  - exists bs. split; auto. split; auto. split; auto. split; [cbn; lia|]. intros k n lv nl. unfold has at 3. cbn. tauto.
  - destruct b as [| |k n lv nl].
    + destruct (IH bs G) as (bs' & A & B & D & E & F); auto. exists bs'. split; auto. split; auto. split; auto. split; [exact E|]. intros k n lv nl. rewrite F. unfold has. cbn. intuition discriminate.
    + destruct (IH bs G) as (bs' & A & B & D & E & F); auto. exists bs'. split; auto. split; auto. split; auto. split; [exact E|]. intros k n lv nl. rewrite F. unfold has. cbn. intuition discriminate.
    + assert (CC : cnt (Ent k n lv nl :: old) = S (cnt old)) by reflexivity. rewrite CC in C.
      destruct (stops_ex bs k n G ltac:(lia)) as (i & ST). pose proof ST as (S1 & S2 & S3).
      assert (FR : at_ bs k n i = Free).
      { destruct S3 as [S3|S3]; auto. exfalso. apply is_key_true in S3. destruct S3 as (a & c & E). apply at_has in E.
        apply (DJ k n); [now left|]. apply ents_in. eauto. }
      pose proof (rehash_slot_spec bs k n i ST FR (len_pos _ G) i 0 (length bs) ltac:(lia) ltac:(lia) ltac:(lia)) as RS.
      change (pos (length bs) (start k n (length bs)) 0) with (start k n (length bs)) in RS. rewrite RS.
      set (bs1 := setnth bs _ _).
      assert (G1 : good bs1) by (apply put_good; auto).
      assert (JL : pos (length bs) (start k n (length bs)) i < length bs) by (apply pos_lt, start_lt, len_pos; auto).
      assert (C1 : cnt bs1 = S (cnt bs)).
      { pose proof (setnth_cnt bs _ (Ent k n lv nl) JL) as Q. fold (at_ bs k n i) in Q. rewrite FR in Q. fold bs1 in Q. lia. }
      assert (L1 : length bs1 = length bs) by apply setnth_length. cbn [ents] in ND. inversion ND; subst.
      assert (HB1 : forall k' n' lv' nl', has bs1 k' n' lv' nl' <-> (k' = k /\ n' = n /\ lv' = lv /\ nl' = nl) \/ (~ (k' = k /\ n' = n) /\ has bs k' n' lv' nl'))
        by (intros; apply put_has; auto).
      destruct (IH bs1 G1) as (bs' & A & B & D & E & F); auto; try lia.
      * intros k' n' I J. apply ents_in in J. destruct J as (a & c & J). apply HB1 in J. destruct J as [(-> & -> & _)|(_ & J)]; [contradiction|].
        apply (DJ k' n'); [now right|]. apply ents_in. eauto.
      * exists bs'. split; auto. split; auto. split; [lia|]. split; [lia|]. intros k' n' lv' nl'. rewrite F, HB1.
        assert (NH : ~ has bs k n lv' nl') by (intro Q; apply (DJ k n); [now left|apply ents_in; eauto]).
        split.
        -- intros [[(-> & -> & -> & ->)|(_ & Q)]|Q]; [right; left; reflexivity|left; exact Q|right; right; exact Q].
        -- intros [Q|[Q|Q]]; [|inversion Q; subst; left; left; auto|right; exact Q]. left. right. split; auto. intros (-> & ->). contradiction.
Qed.
Lemma ents_nodup bs : good bs -> NoDup (ents bs).
Proof.
  intro G. assert (U : forall i j k n a b c d, nth i bs Free = Ent k n a b -> nth j bs Free = Ent k n c d -> i = j).
  { intros i j k n a b c d A B. destruct (g_ent _ G _ _ _ _ _ A) as (x & X & <-). destruct (g_ent _ G _ _ _ _ _ B) as (y & Y & <-).
    now rewrite (stops_unique _ _ _ _ _ X Y). }
  clear G. induction bs as [|b bs IH]; cbn; [constructor|].
  assert (IH' : NoDup (ents bs)).
  { apply IH. intros i j k n a b0 c d A B. specialize (U (S i) (S j) k n a b0 c d A B). lia. }
  destruct b as [| |k n lv nl]; auto. constructor; auto. intro I. apply ents_in in I. destruct I as (a & c & I). apply has_nth in I.
  destruct I as (j & E). specialize (U 0 (S j) k n lv nl a c eq_refl E). lia.
Qed.
Record hgood (h : mhash) : Prop := { h_good : good (bins h); h_cnt : entries h = cnt (bins h); h_lt : cnt (bins h) < size h; h_2 : 2 <= size h }.
Lemma filter_le {A} (f : A -> bool) l : length (filter f l) <= length l.
Proof. induction l as [|a l IH]; cbn; auto. destruct (f a); cbn; lia. Qed.
Lemma has_cnt bs k n lv nl : has bs k n lv nl -> 0 < cnt bs.
Proof.
  intro E. assert (I : In (Ent k n lv nl) (filter (fun b => match b with Ent _ _ _ _ => true | _ => false end) bs)) by (apply filter_In; auto).
  unfold cnt. destruct (filter _ _); [destruct I|cbn; lia].
Qed.
(** insertion *)
Definition adds (m : method) (k : option class) n (old new : list bin) : Prop :=
  (forall k' n' lv nl, ~ (k' = k /\ n' = n) -> (has new k' n' lv nl <-> has old k' n' lv nl)) /\
  exists lt nt, (has old k n lt nt \/ ((forall a b, ~ has old k n a b) /\ lt = [] /\ nt = [])) /\
    forall lv nl, has new k n lv nl <-> lv = (if leaf m then m :: lt else lt) /\ nl = (if leaf m then nt else m :: nt).
Lemma insert_1_spec h k n m : good (bins h) -> entries h = cnt (bins h) -> 2 <= size h -> S (cnt (bins h)) < size h ->
  exists h', mhash_insert_1 h k n m = Some h' /\ hgood h' /\ adds m k n (bins h) (bins h').
Proof.
  intros G HC H2 C. destruct (stops_ex (bins h) k n G ltac:(unfold size in *; lia)) as (i & ST). pose proof ST as (S1 & S2 & S3).
  pose proof (find_slot_spec h k n i ST i 0 (size h) ltac:(lia) ltac:(lia) ltac:(exact S1)) as FS.
  assert (JL : pos (size h) (start k n (size h)) i < size h) by (apply pos_lt, start_lt, (len_pos _ G)).
  unfold mhash_insert_1. change (pos (size h) (start k n (size h)) 0) with (start k n (size h)) in FS. rewrite FS. clear FS.
  assert (PG : forall a b, hgood {| bins := setnth (bins h) (pos (size h) (start k n (size h)) i) (Ent k n a b);
      entries := S (entries h - match at_ (bins h) k n i with Ent _ _ _ _ => 1 | _ => 0 end) |}).
  { intros a b. split; unfold size; cbn [bins entries]; rewrite ?setnth_length.
    - apply put_good; auto.
    - pose proof (setnth_cnt (bins h) _ (Ent k n a b) JL) as Q.
      change (nth (pos (size h) (start k n (size h)) i) (bins h) Free) with (at_ (bins h) k n i) in Q. fold (size h).
      destruct S3 as [S3|S3]; [rewrite S3 in *; lia|]. destruct (proj1 (is_key_true _ _ _) S3) as (lt0 & nt0 & E). rewrite E in *.
      apply at_has in E. apply has_cnt in E. lia.
    - pose proof (setnth_cnt (bins h) _ (Ent k n a b) JL) as Q. fold (size h). unfold size in *. lia.
    - exact H2. }
  destruct S3 as [S3|S3].
  - rewrite S3 in *. eexists. split; [reflexivity|]. split; [apply PG|].
    cbn [bins]. assert (NH : forall a b, ~ has (bins h) k n a b) by (intros a b Q; pose proof (stop_has _ _ _ _ _ _ G ST Q); congruence).
    split.
    + intros k' n' lv nl N. unfold size. rewrite put_has by auto. tauto.
    + exists [], []. split; [right; auto|]. intros lv nl. unfold size. rewrite put_has by auto. tauto.
  - destruct (proj1 (is_key_true _ _ _) S3) as (lt0 & nt0 & E). rewrite E in *. eexists. split; [reflexivity|]. split; [apply PG|].
    cbn [bins]. split.
    + intros k' n' lv nl N. unfold size. rewrite put_has by auto. tauto.
    + exists lt0, nt0. split; [left; eapply at_has; eauto|]. intros lv nl. unfold size. rewrite put_has by auto. tauto.
Qed.
Lemma insert_spec h k n m : hgood h -> exists h', mhash_insert h k n m = Some h' /\ hgood h' /\ adds m k n (bins h) (bins h').
Proof.
  intros [G HC HL H2]. unfold mhash_insert. destruct (Nat.leb_spec (size h) (entries h * 2)) as [L|L].
  - destruct (g_pow _ G) as (p & PW). fold (size h) in PW. assert (LP := len_pos _ G). fold (size h) in LP.
    assert (CB : cnt (bins h) <= size h) by apply filter_le.
    replace (size h * 2) with (2 ^ S p) by (cbn; lia).
    destruct (rehash_spec (bins h) (repeat Free (2 ^ S p))) as (bs & A & B & D & E & F).
    + apply repeat_good.
    + now apply ents_nodup.
    + intros k' n' _ I. apply ents_in in I. destruct I as (a & c & I). apply repeat_spec in I. discriminate.
    + rewrite cnt_repeat, repeat_length. cbn. lia.
    + rewrite A. rewrite cnt_repeat in E. rewrite repeat_length in D.
      destruct (insert_1_spec {| bins := bs; entries := entries h |} k n m) as (h' & I1 & I2 & I3).
      * exact B.
      * cbn [entries bins]. rewrite E, HC. reflexivity.
      * change (size _) with (length bs). rewrite D, Nat.pow_succ_r', <- PW. lia.
      * change (size _) with (length bs). cbn [bins]. rewrite D, E, Nat.pow_succ_r', <- PW. lia.
      * exists h'. split; auto. split; auto. cbn [bins] in I3. assert (F' : forall k' n' lv nl, has bs k' n' lv nl <-> has (bins h) k' n' lv nl).
        { intros. rewrite F. split; [intros [Q|Q]; auto; apply repeat_spec in Q; discriminate|auto]. }
        destruct I3 as (J1 & lt0 & nt0 & J2 & J3). split; [intros; rewrite J1, F'; tauto|]. exists lt0, nt0. split; auto.
        destruct J2 as [J2|(J2 & J4)]; [left; now apply F'|right; split; auto; intros a b Q; apply (J2 a b), F'; auto].
  - apply insert_1_spec; auto. lia.
Qed.
Lemma probe_has h k n : hgood h -> forall lv, mhash_probe h k n = Some lv <-> has (bins h) k n lv [].
Proof.
  intros [G HC C _] lv. destruct (stops_ex (bins h) k n G C) as (i & ST). pose proof ST as (S1 & S2 & S3).
  unfold mhash_probe. pose proof (probe_spec h k n i ST i 0 (size h) ltac:(lia) ltac:(lia) ltac:(exact S1)) as PS.
  change (pos (size h) (start k n (size h)) 0) with (start k n (size h)) in PS. rewrite PS. split.
  - destruct S3 as [S3|S3]; [rewrite S3; discriminate|]. apply is_key_true in S3. destruct S3 as (a & b & E). rewrite E.
    destruct b; [|discriminate]. intro Q; inversion Q; subst. eapply at_has; eauto.
  - intro H. rewrite (stop_has _ _ _ _ _ _ G ST H). reflexivity.
Qed.
