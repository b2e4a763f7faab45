From Coq Require Import ZArith List Bool Arith Lia.
From Verif Require Import Outcome BitsModel BitsSpec BitsProofs BitsProofs2.
Import ListNotations.
Local Open Scope Z_scope.
Ltac Zify.zify_post_hook ::= idtac.

(** digit lists *)
Fixpoint val (k : Z) (ds : list Z) : Z := match ds with [] => 0 | d :: t => d + 2 ^ k * val k t end.
Lemma tb_split : forall j a b n, 0 <= j -> 0 <= a < 2 ^ j -> 0 <= n -> Z.testbit (a + 2 ^ j * b) n = if n <? j then Z.testbit a n else Z.testbit b (n - j).
Proof.
  intros j a b n Hj Ha Hn. assert (Pj : 0 < 2 ^ j) by (apply Z.pow_pos_nonneg; lia). destruct (Z.ltb_spec n j).
  - rewrite <- (Z.mod_pow2_bits_low (a + 2 ^ j * b) j n) by lia. f_equal. rewrite (Z.mul_comm (2 ^ j)), Z.mod_add by lia. now apply Z.mod_small.
  - replace n with (n - j + j) at 1 by lia. rewrite <- Z.div_pow2_bits by lia. f_equal. rewrite (Z.mul_comm (2 ^ j)), Z.div_add by lia. now rewrite Z.div_small.
Qed.
Lemma land_split : forall j a b c d, 0 <= j -> 0 <= a < 2 ^ j -> 0 <= c < 2 ^ j -> Z.land (a + 2 ^ j * b) (c + 2 ^ j * d) = Z.land a c + 2 ^ j * Z.land b d.
Proof.
  intros j a b c d Hj Ha Hc. apply Z.bits_inj'. intros n Hn. assert (L : 0 <= Z.land a c < 2 ^ j). { split; [apply Z.land_nonneg; lia|]. destruct (Z.eq_dec (Z.land a c) 0) as [->|N]; [lia|]. assert (0 <= Z.land a c) by (apply Z.land_nonneg; lia). apply Z.log2_lt_pow2; [lia|]. pose proof (Z.log2_land a c ltac:(lia) ltac:(lia)). destruct (Z.eq_dec a 0) as [->|]; [rewrite Z.land_0_l in N; lia|]. assert (Z.log2 a < j) by (apply Z.log2_lt_pow2; lia). lia. }
  rewrite Z.land_spec, !tb_split by auto. destruct (n <? j); now rewrite Z.land_spec.
Qed.
Fixpoint pairsum (n : nat) (ds : list Z) : list Z :=
  match n, ds with S m, d0 :: d1 :: t => (d0 + d1) :: pairsum m t | _, _ => [] end.
Definition dig (b : Z) (ds : list Z) : Prop := Forall (fun d => 0 <= d <= b) ds.
Lemma val_nonneg : forall k b ds, 0 <= k -> dig b ds -> 0 <= val k ds.
Proof. intros k b ds Hk H. induction H; cbn [val]; [lia|]. pose proof (Z.pow_pos_nonneg 2 k ltac:(lia) Hk). nia. Qed.
Lemma swar_step : forall n k ds, 0 < k -> dig (2 ^ k - 1) ds -> length ds = (2 * n)%nat ->
  Z.land (val k ds) (val (2 * k) (repeat (Z.ones k) n)) + Z.land (Z.shiftr (val k ds) k) (val (2 * k) (repeat (Z.ones k) n)) = val (2 * k) (pairsum n ds).
Proof.
  induction n; intros k ds Hk D L; [destruct ds; [|discriminate]; cbn; now rewrite !Z.land_0_r|]. destruct ds as [|d0 [|d1 t]]; try (cbn in L; lia). inversion D as [|? ? D0 Dt]; subst. inversion Dt as [|? ? D1 Dt']; subst.
  cbn [repeat val pairsum]. rewrite <- (IHn k t) by (auto; cbn in L; lia). set (T := val k t). set (Mk := val (2 * k) (repeat (Z.ones k) n)). assert (Pk : 0 < 2 ^ k) by (apply Z.pow_pos_nonneg; lia). assert (P2 : 2 ^ (2 * k) = 2 ^ k * 2 ^ k) by (rewrite <- Z.pow_add_r by lia; f_equal; lia).
  assert (On : Z.ones k = 2 ^ k - 1) by (rewrite Z.ones_equiv; lia).
  assert (Hland : forall d, 0 <= d <= 2 ^ k - 1 -> Z.land d (Z.ones k) = d). { intros d Hd. rewrite Z.land_ones by lia. apply Z.mod_small. lia. }
  replace (d0 + 2 ^ k * (d1 + 2 ^ k * T)) with ((d0 + 2 ^ k * d1) + 2 ^ (2 * k) * T) by lia. rewrite land_split by nia.
  replace (Z.shiftr (d0 + 2 ^ k * d1 + 2 ^ (2 * k) * T) k) with (d1 + 2 ^ k * T). 2:{ rewrite Z.shiftr_div_pow2 by lia. apply Z.div_unique with (r := d0); [left; lia|nia]. }
  replace (Z.land (d0 + 2 ^ k * d1) (Z.ones k)) with d0. 2:{ rewrite Z.land_ones by lia. symmetry. rewrite Z.mul_comm, Z.mod_add by lia. apply Z.mod_small. lia. }
  assert (E : Z.land (d1 + 2 ^ k * T) (Z.ones k + 2 ^ (2 * k) * Mk) = d1 + 2 ^ (2 * k) * Z.land (Z.shiftr T k) Mk).
  { rewrite P2 at 1. replace (Z.ones k + 2 ^ k * 2 ^ k * Mk) with (Z.ones k + 2 ^ k * (0 + 2 ^ k * Mk)) by lia. rewrite land_split by lia. rewrite Hland by lia.
    assert (ET : T = T mod 2 ^ k + 2 ^ k * Z.shiftr T k) by (rewrite Z.shiftr_div_pow2 by lia; pose proof (Z.div_mod T (2 ^ k) ltac:(lia)); lia). rewrite ET at 1. rewrite land_split by (try lia; apply Z.mod_pos_bound; lia). rewrite Z.land_0_r, P2. ring. }
  rewrite E. ring.
Qed.
Lemma pairsum_dig : forall n b ds, dig b ds -> dig (2 * b) (pairsum n ds).
Proof. induction n; intros b ds D; [constructor|]. destruct ds as [|d0 [|d1 t]]; try constructor. - inversion D as [|? ? D0 D1]; inversion D1; subst. lia. - apply IHn. inversion D as [|? ? D0 D1]; inversion D1; subst. auto. Qed.
Lemma pairsum_length : forall n ds, length ds = (2 * n)%nat -> length (pairsum n ds) = n.
Proof. induction n; intros ds L; [destruct ds; [reflexivity|discriminate]|]. destruct ds as [|d0 [|d1 t]]; try (cbn in L; lia). cbn [pairsum length]. f_equal. apply IHn. cbn in L. lia. Qed.
Definition sumz (ds : list Z) : Z := fold_right Z.add 0 ds.
Lemma pairsum_sum : forall n ds, length ds = (2 * n)%nat -> sumz (pairsum n ds) = sumz ds.
Proof. induction n; intros ds L; [destruct ds; [reflexivity|discriminate]|]. destruct ds as [|d0 [|d1 t]]; try (cbn in L; lia). cbn [pairsum sumz fold_right]. change (d0 + d1 + sumz (pairsum n t) = d0 + (d1 + sumz t)). rewrite IHn by (cbn in L; lia). lia. Qed.
Fixpoint bits_of (n : nat) (w : Z) : list Z := match n with O => [] | S m => w mod 2 :: bits_of m (w / 2) end.
Lemma bits_of_val : forall n w, 0 <= w < 2 ^ Z.of_nat n -> val 1 (bits_of n w) = w.
Proof.
  induction n; intros w H; cbn [bits_of val]; [cbn in H; lia|]. rewrite IHn. - pose proof (Z.div_mod w 2 ltac:(lia)). lia.
  - rewrite Nat2Z.inj_succ, Z.pow_succ_r in H by lia. split; [apply Z.div_pos; lia|apply Z.div_lt_upper_bound; lia].
Qed.
Lemma bits_of_dig : forall n w, dig 1 (bits_of n w).
Proof. induction n; intros w; constructor; [pose proof (Z.mod_pos_bound w 2 ltac:(lia)); lia|apply IHn]. Qed.
Lemma bits_of_length : forall n w, length (bits_of n w) = n. Proof. induction n; intros; cbn; auto. Qed.
Lemma count_ext : forall n f g s t, (forall i, (i < n)%nat -> f (s + i)%nat = g (t + i)%nat) -> count_if f s n = count_if g t n.
Proof. induction n; intros f g s t H; cbn [count_if]; auto. pose proof (H 0%nat ltac:(lia)) as H0. rewrite !Nat.add_0_r in H0. rewrite H0. f_equal. apply IHn. intros i Hi. specialize (H (S i) ltac:(lia)). now rewrite <- !plus_n_Sm in H. Qed.
Lemma count_app : forall n m f s, count_if f s (n + m) = (count_if f s n + count_if f (s + n) m)%nat.
Proof. induction n; intros m f s; cbn [count_if Nat.add]; [now rewrite Nat.add_0_r|]. rewrite IHn. replace (S s + n)%nat with (s + S n)%nat by lia. lia. Qed.
Lemma count_zero : forall n f s, (forall i, (i < n)%nat -> f (s + i)%nat = false) -> count_if f s n = 0%nat.
Proof. induction n; intros f s H; cbn [count_if]; auto. pose proof (H 0%nat ltac:(lia)) as H0. rewrite Nat.add_0_r in H0. rewrite H0. apply IHn. intros i Hi. specialize (H (S i) ltac:(lia)). now rewrite <- plus_n_Sm in H. Qed.
Lemma count_le : forall n f s, (count_if f s n <= n)%nat. Proof. induction n; intros f s; cbn [count_if]; auto. specialize (IHn f (S s)). destruct (f s); lia. Qed.
Lemma bits_of_sum : forall n w, 0 <= w -> sumz (bits_of n w) = Z.of_nat (count_if (tb w) 0 n).
Proof.
  induction n; intros w H; cbn [bits_of count_if sumz fold_right]; auto. change (w mod 2 + sumz (bits_of n (w / 2)) = Z.of_nat ((if tb w 0 then 1 else 0) + count_if (tb w) 1 n)). rewrite IHn by (apply Z.div_pos; lia).
  rewrite (count_ext n (tb (w / 2)) (tb w) 0 1). 2:{ intros i Hi. unfold tb. change (w / 2) with (w / 2 ^ 1). rewrite Z.div_pow2_bits by lia. f_equal. lia. }
  rewrite Nat2Z.inj_add. f_equal. unfold tb. change (Z.of_nat 0) with 0. rewrite <- Z.bit0_mod. now destruct (Z.testbit w 0).
Qed.
Lemma mul_bytes : forall ds, length ds = 8%nat -> dig 8 ds -> Z.shiftr ((val 8 ds * 0x0101010101010101) mod 2 ^ 64) 56 = sumz ds.
Proof.
  intros ds L D. do 8 (destruct ds as [|? ds]; [discriminate|]). destruct ds; [|discriminate]. unfold dig in D. repeat match goal with H : Forall _ (_ :: _) |- _ => apply Forall_cons_iff in H; destruct H as [? H] end. clear L D.
  rewrite Z.shiftr_div_pow2 by lia. cbn [val sumz fold_right]. change (2 ^ 8) with 256. change (2 ^ 64) with 18446744073709551616. change (2 ^ 56) with 72057594037927936.
  match goal with |- (?X mod ?A) / ?B = ?R => set (x := X); set (r := R) end.
  rename z into b0, z0 into b1, z1 into b2, z2 into b3, z3 into b4, z4 into b5, z5 into b6, z6 into b7.
  assert (E : x = 18446744073709551616 * (1 * (b1+b2+b3+b4+b5+b6+b7) + 256 * (b2+b3+b4+b5+b6+b7) + 65536 * (b3+b4+b5+b6+b7) + 16777216 * (b4+b5+b6+b7) + 4294967296 * (b5+b6+b7) + 1099511627776 * (b6+b7) + 281474976710656 * (b7)) + (72057594037927936 * r + (1 * (b0) + 256 * (b0+b1) + 65536 * (b0+b1+b2) + 16777216 * (b0+b1+b2+b3) + 4294967296 * (b0+b1+b2+b3+b4) + 1099511627776 * (b0+b1+b2+b3+b4+b5) + 281474976710656 * (b0+b1+b2+b3+b4+b5+b6)))) by (unfold x, r; ring).
  assert (R : r = b0 + (b1 + (b2 + (b3 + (b4 + (b5 + (b6 + (b7 + 0)))))))) by reflexivity. clearbody x r.
  match type of E with x = ?A * ?H + ?L => assert (Em : x mod A = L) by (symmetry; apply (Z.mod_unique x A H L); [left; lia|exact E]) end.
  rewrite Em. symmetry. eapply Z.div_unique; [left|reflexivity]. lia.
Qed.
Lemma count_bits_ok : forall w, word w -> count_bits w = Z.of_nat (count_if (tb w) 0 64).
Proof.
  intros w H. unfold count_bits. set (R := Z.of_nat _). rewrite <- (bits_of_val 64 w) by exact H. set (d1 := bits_of 64 w). assert (D1 : dig 1 d1) by apply bits_of_dig. assert (L1 : length d1 = 64%nat) by apply bits_of_length.
  change M1 with (val (2 * 1) (repeat (Z.ones 1) 32)). rewrite (swar_step 32 1 d1) by (auto; lia). set (d2 := pairsum 32 d1). assert (D2 : dig 2 d2) by (apply (pairsum_dig 32 1); auto). assert (L2 : length d2 = 32%nat) by (apply pairsum_length; auto).
  change (2 * 1) with 2. change M2 with (val (2 * 2) (repeat (Z.ones 2) 16)). assert (D2' : dig (2 ^ 2 - 1) d2) by (eapply Forall_impl; [|exact D2]; cbn; lia). rewrite (swar_step 16 2 d2) by (auto; lia). set (d3 := pairsum 16 d2). assert (D3 : dig 4 d3) by (apply (pairsum_dig 16 2); auto). assert (L3 : length d3 = 16%nat) by (apply pairsum_length; auto).
  change (2 * 2) with 4. change M4 with (val (2 * 4) (repeat (Z.ones 4) 8)). assert (D3' : dig (2 ^ 4 - 1) d3) by (eapply Forall_impl; [|exact D3]; cbn; lia). rewrite (swar_step 8 4 d3) by (auto; lia). set (d4 := pairsum 8 d3). assert (D4 : dig 8 d4) by (apply (pairsum_dig 8 4); auto). assert (L4 : length d4 = 8%nat) by (apply pairsum_length; auto).
  change (2 * 4) with 8. rewrite mul_bytes by auto. unfold d4. rewrite pairsum_sum by auto. unfold d3. rewrite pairsum_sum by auto. unfold d2. rewrite pairsum_sum by auto. apply bits_of_sum. apply H.
Qed.
Lemma count_masked : forall neg mem p q s e, memory mem -> (s < 64)%nat -> (e < 64)%nat -> (e = 0 \/ s <= e)%nat ->
  count_bits (Z.land (view neg (nth (p + q) mem 0)) (bits_mask s e)) = Z.of_nat (count_if (seen neg mem p) (64 * q + s) ((if (e =? 0)%nat then 64 else e) - s)).
Proof.
  intros neg mem p q s e M Hs He Hse. destruct (masked neg mem p q s e M Hs ltac:(lia)) as (W & T). rewrite count_bits_ok by auto. f_equal. set (e' := if (e =? 0)%nat then 64%nat else e). assert (s <= e' <= 64)%nat by (unfold e'; destruct (Nat.eqb_spec e 0); lia).
  replace 64%nat with (s + ((e' - s) + (64 - e')))%nat at 1 by lia. rewrite !count_app. rewrite count_zero, Nat.add_0_l. 2:{ intros i Hi. rewrite T by lia. bsolve. } rewrite (count_zero (64 - e')), Nat.add_0_r. 2:{ intros i Hi. rewrite T by lia. unfold e' in *. revert Hi. bsolve. all: intros; cbn [andb orb]; try lia; auto. }
  apply count_ext. intros i Hi. rewrite T by lia. rewrite Nat.add_assoc. unfold e' in Hi. revert Hi. bsolve. all: intros; cbn [andb orb]; try lia; auto. all: f_equal; lia.
Qed.
Lemma count_full : forall neg mem p q, memory mem -> count_bits (view neg (nth (p + q) mem 0)) = Z.of_nat (count_if (seen neg mem p) (64 * q) 64).
Proof.
  intros neg mem p q M. rewrite count_bits_ok by (apply word_view, nth_word; auto). f_equal. apply count_ext. intros i Hi. rewrite Nat.add_0_l, tb_view by auto. unfold seen. rewrite at_qr by auto. reflexivity.
Qed.
Lemma count_words_ok : forall neg p n mem q num, memory mem -> (p + q + n <= length mem)%nat -> 0 <= num -> num + 64 * Z.of_nat n < 2 ^ 64 ->
  count_words neg n mem (p + q) num = Ok (num + Z.of_nat (count_if (seen neg mem p) (64 * q) (64 * n))).
Proof.
  intros neg p. induction n; intros mem q num M L Hn Hb; cbn [count_words].
  - rewrite Nat.mul_0_r. cbn [count_if]. f_equal. lia.
  - rewrite wrd_ok by lia. cbn [bind]. rewrite count_full by auto. pose proof (count_le 64 (seen neg mem p) (64 * q)) as C. rewrite Z.mod_small by lia. replace (S (p + q)) with (p + S q)%nat by lia. rewrite IHn by (auto; lia). f_equal. replace (64 * S n)%nat with (64 + 64 * n)%nat by lia. rewrite count_app. replace (64 * q + 64)%nat with (64 * S q)%nat by lia. lia.
Qed.
Lemma to_int_small : forall z, 0 <= z < 2 ^ 31 -> to_int z = z.
Proof. intros z H. unfold to_int. rewrite Z.mod_small by (change (2 ^ 32) with (2 ^ 31 + 2 ^ 31); lia). lia. Qed.
Lemma bits_count_ok : forall neg mem p s e, memory mem -> (s <= e)%nat -> array mem p e -> Z.of_nat (e - s) < 2 ^ 31 ->
  bits_count neg mem p s e = Ok (Z.of_nat (count_if (seen neg mem p) s (e - s))).
Proof.
  intros neg mem p s e M Hse L B. unfold bits_count, array in *. destruct (Nat.eqb_spec s e) as [<-|N]; [now rewrite Nat.sub_diag|].
  destruct (range_end s e ltac:(lia)) as (ew & eb & -> & -> & Heb & Lsw & He). destruct (split64 s) as (sw & sb & E1 & -> & Es & Hsb). rewrite E1 in *. clear E1. pose proof (count_le (e - s) (seen neg mem p) s) as C.
  destruct (Nat.eqb_spec sw ew) as [<-|N2].
  - rewrite wrd_ok by lia. cbn [bind]. rewrite count_masked by (auto; lia). rewrite <- Es. replace ((if (eb =? 0)%nat then 64 else eb) - sb)%nat with (e - s)%nat by bsolve. rewrite to_int_small by lia. reflexivity.
  - rewrite wrd_ok by lia. cbn [bind]. rewrite count_masked by (auto; lia). cbn [Nat.eqb]. rewrite <- Es.
    replace (e - s)%nat with ((64 - sb) + (64 * (ew - S sw) + ((if (eb =? 0)%nat then 64 else eb) - 0)))%nat in * by bsolve. rewrite !count_app in *. replace (s + (64 - sb))%nat with (64 * S sw)%nat in * by lia. replace (64 * S sw + 64 * (ew - S sw))%nat with (64 * ew)%nat in * by lia.
    pose proof (count_le (64 - sb) (seen neg mem p) s) as C1. change (2 ^ 31) with 2147483648 in *.
    rewrite (count_words_ok neg p (ew - S sw) mem (S sw)) by (auto; change (2 ^ 64) with 18446744073709551616; lia). cbn [bind]. rewrite wrd_ok by lia. cbn [bind]. rewrite count_masked by (auto; lia). rewrite Nat.add_0_r in *. rewrite Z.mod_small by (change (2 ^ 64) with 18446744073709551616; lia). rewrite to_int_small by (change (2 ^ 31) with 2147483648; lia). f_equal. lia.
Qed.

(** lowest and highest bit of a word *)
Definition lowest_of (w : Z) (k : nat) : Prop := (k < 64)%nat /\ tb w k = true /\ forall i, (i < k)%nat -> tb w i = false.
Definition highest_of (w : Z) (k : nat) : Prop := (k < 64)%nat /\ tb w k = true /\ forall i, (k < i < 64)%nat -> tb w i = false.
Lemma lowest_exists : forall w, word w -> (w =? 0) = false -> exists k, lowest_of w k.
Proof.
  intros w W E. apply (word_nonzero w W) in E. destruct E as (i & Hi & T). revert Hi T. induction i as [i IH] using lt_wf_ind. intros Hi T. destruct (existsb (tb w) (seq 0 i)) eqn:X.
  - apply existsb_exists in X. destruct X as (j & Hj & Tj). apply in_seq in Hj. apply (IH j); auto; lia.
  - exists i. split; auto. split; auto. intros j Hj. destruct (tb w j) eqn:Tj; auto. rewrite (proj2 (existsb_exists _ _)) in X; [discriminate|]. exists j. split; auto. apply in_seq. lia.
Qed.
Lemma highest_exists : forall w, word w -> (w =? 0) = false -> exists k, highest_of w k.
Proof.
  intros w W E. apply (word_nonzero w W) in E. destruct E as (i & Hi & T). remember (64 - i)%nat as d eqn:Ed. revert i Hi T Ed. induction d as [d IH] using lt_wf_ind. intros i Hi T Ed. destruct (existsb (tb w) (seq (S i) (63 - i))) eqn:X.
  - apply existsb_exists in X. destruct X as (j & Hj & Tj). apply in_seq in Hj. apply (IH (64 - j)%nat) with (i := j); auto; lia.
  - exists i. split; auto. split; auto. intros j Hj. destruct (tb w j) eqn:Tj; auto. rewrite (proj2 (existsb_exists _ _)) in X; [discriminate|]. exists j. split; auto. apply in_seq. lia.
Qed.
Definition lowest_tail (word : Z) : nat :=
  let add m k := if Z.land word m =? 0 then 0%nat else k in
  (add H32 32 + add H16 16 + add H8 8 + add H4 4 + add H2 2 + add H1 1)%nat.
Lemma lowest_tail_pow : forall k, (k < 64)%nat -> lowest_tail (2 ^ Z.of_nat k) = k.
Proof.
  assert (F : forallb (fun k => (lowest_tail (2 ^ Z.of_nat k) =? k)%nat) (seq 0 64) = true) by (vm_compute; reflexivity). intros k Hk. rewrite forallb_forall in F. apply Nat.eqb_eq, F, in_seq. lia.
Qed.
Lemma lowest_ok : forall w k, word w -> lowest_of w k -> lowest w = k.
Proof.
  intros w k W (Hk & T & B). change (lowest_tail (Z.lxor w (Z.land w (w - 1))) = k). transitivity (lowest_tail (2 ^ Z.of_nat k)); [|now apply lowest_tail_pow]. f_equal.
  (* w = 2^(k+1) * m + 2^k *)
  set (K := Z.of_nat k). assert (P : 0 < 2 ^ K) by (apply Z.pow_pos_nonneg; unfold K; lia). assert (P1 : 2 ^ (K + 1) = 2 * 2 ^ K) by (rewrite Z.pow_add_r by (unfold K; lia); change (2 ^ 1) with 2; lia).
  set (m := w / 2 ^ (K + 1)). assert (Ew : w = 2 ^ K + 2 ^ (K + 1) * m).
  { pose proof (Z.div_mod w (2 ^ (K + 1)) ltac:(lia)) as Dm. fold m in Dm. replace (w mod 2 ^ (K + 1)) with (2 ^ K) in Dm; [lia|]. apply Z.bits_inj'. intros n Hn. rewrite Z.pow2_bits_eqb by (unfold K; lia). destruct (Z.ltb_spec n (K + 1)).
    - rewrite Z.mod_pow2_bits_low by lia. destruct (Z.eqb_spec K n) as [<-|]; [symmetry; exact T|]. specialize (B (Z.to_nat n) ltac:(unfold K in *; lia)). unfold tb in B. rewrite Z2Nat.id in B by lia. auto.
    - rewrite Z.mod_pow2_bits_high by (unfold K in *; lia). destruct (Z.eqb_spec K n); auto. lia. }
  assert (Ew1 : w - 1 = (2 ^ K - 1) + 2 ^ (K + 1) * m) by lia.
  apply Z.bits_inj'. intros n Hn. rewrite Z.lxor_spec, Z.land_spec, Ew1. rewrite Ew at 1 2. rewrite !tb_split by (unfold K in *; lia). rewrite Z.pow2_bits_eqb by (unfold K; lia). destruct (Z.ltb_spec n (K + 1)).
  - destruct (Z.eqb_spec K n) as [<-|].
    + rewrite Z.sub_1_r, <- Z.ones_equiv. rewrite Z.ones_spec_high by (unfold K; lia). reflexivity.
    + reflexivity.
  - destruct (Z.eqb_spec K n); [lia|]. now destruct (Z.testbit m (n - (K + 1))).
Qed.
(** the masks select the odd blocks of size s *)
Lemma mask_blocks : forall M s, In (M, s) [(H32, 32); (H16, 16); (H8, 8); (H4, 4); (H2, 2); (H1, 1)]%nat -> word M /\ (0 < s)%nat /\ forall i, (i < 64)%nat -> tb M i = Nat.odd (i / s).
Proof.
  intros M s H. assert (F : forallb (fun p => (0 <=? fst p) && (fst p <? 2 ^ 64) && (0 <? snd p)%nat && forallb (fun i => Bool.eqb (tb (fst p) i) (Nat.odd (i / snd p))) (seq 0 64)) [(H32, 32); (H16, 16); (H8, 8); (H4, 4); (H2, 2); (H1, 1)]%nat = true) by (vm_compute; reflexivity).
  rewrite forallb_forall in F. apply F in H. cbn [fst snd] in H. apply andb_true_iff in H. destruct H as (H & Hb). apply andb_true_iff in H. destruct H as (H & Hs). apply andb_true_iff in H. destruct H as (H0 & H1'). apply Z.leb_le in H0. apply Z.ltb_lt in H1'. apply Nat.ltb_lt in Hs. split; [split; auto|]. split; auto. intros i Hi. rewrite forallb_forall in Hb. apply eqb_prop, Hb, in_seq. lia.
Qed.
Definition block_inv (s h : nat) (w : Z) : Prop := word w /\ highest_of w h /\ forall i, (i < 64)%nat -> tb w i = true -> (i / s = h / s)%nat.
Lemma div_half : forall i s, (0 < s)%nat -> (i / s = 2 * (i / (2 * s)) + (if Nat.odd (i / s) then 1 else 0))%nat.
Proof.
  intros i s Hs. replace (2 * s)%nat with (s * 2)%nat by lia. rewrite <- Nat.div_div by lia. pose proof (Nat.div_mod (i / s) 2 ltac:(lia)) as E. rewrite <- Nat.bit0_mod in E. rewrite Nat.bit0_odd in E. destruct (Nat.odd (i / s)); cbn [Nat.b2n] in E; lia.
Qed.
Lemma hi_step_ok : forall M s h w n, In (M, s) [(H32, 32); (H16, 16); (H8, 8); (H4, 4); (H2, 2); (H1, 1)]%nat -> block_inv (2 * s) h w ->
  exists w', hi_step M s (n, w) = ((n + (if Nat.odd (h / s) then s else 0))%nat, w') /\ block_inv s h w'.
Proof.
  intros M s h w n HM (W & (Hh & Th & Ah) & Bl). destruct (mask_blocks M s HM) as (WM & Hs & TM). unfold hi_step. cbn [fst snd].
  assert (Wz : word (Z.land w M)) by (apply word_land; auto; apply WM). destruct (Nat.odd (h / s)) eqn:O.
  - rewrite (proj2 (word_nonzero _ Wz)) by (exists h; rewrite tb_land, Th, TM, O by auto; auto). eexists. split; [reflexivity|]. split; auto. split. { split; auto. split; [rewrite tb_land, Th, TM, O by auto; auto|]. intros i Hi. now rewrite tb_land, Ah. }
    intros i Hi Ti. rewrite tb_land, TM in Ti by auto. apply andb_true_iff in Ti. destruct Ti as (Ti & Oi). rewrite (div_half i s Hs), (div_half h s Hs), O, Oi, (Bl i Hi Ti). reflexivity.
  - assert (Bl2 : forall i, (i < 64)%nat -> tb w i = true -> (i / s = h / s)%nat). { intros i Hi Ti. assert (i <= h)%nat. { destruct (Nat.leb_spec i h); auto. rewrite Ah in Ti by lia. discriminate. } pose proof (Nat.div_le_mono i h s ltac:(lia) H). pose proof (div_half i s Hs) as D1. pose proof (div_half h s Hs) as D2. rewrite O in D2. rewrite (Bl i Hi Ti) in D1. destruct (Nat.odd (i / s)); lia. }
    rewrite (proj2 (word_zero _ Wz)). 2:{ intros i Hi. rewrite tb_land, TM by auto. destruct (tb w i) eqn:Ti; auto. rewrite (Bl2 i Hi Ti), O. reflexivity. }
    exists w. split; [now rewrite Nat.add_0_r|]. split; auto. split; auto. split; auto.
Qed.
Lemma highest_ok : forall w k, word w -> highest_of w k -> highest w = k.
Proof.
  intros w k W Hk. unfold highest. assert (B0 : block_inv (2 * 32) k w). { split; auto. split; auto. intros i Hi _. destruct Hk as (Hk & _). rewrite !Nat.div_small by lia. reflexivity. }
  destruct (hi_step_ok H32 32 k w 0 ltac:(cbn; auto 10) B0) as (w1 & -> & B1). destruct (hi_step_ok H16 16 k w1 (0 + (if Nat.odd (k / 32) then 32 else 0)) ltac:(cbn; auto 10) B1) as (w2 & -> & B2).
  destruct (hi_step_ok H8 8 k w2 (0 + (if Nat.odd (k / 32) then 32 else 0) + (if Nat.odd (k / 16) then 16 else 0)) ltac:(cbn; auto 10) B2) as (w3 & -> & B3).
  destruct (hi_step_ok H4 4 k w3 (0 + (if Nat.odd (k / 32) then 32 else 0) + (if Nat.odd (k / 16) then 16 else 0) + (if Nat.odd (k / 8) then 8 else 0)) ltac:(cbn; auto 10) B3) as (w4 & -> & B4).
  destruct (hi_step_ok H2 2 k w4 (0 + (if Nat.odd (k / 32) then 32 else 0) + (if Nat.odd (k / 16) then 16 else 0) + (if Nat.odd (k / 8) then 8 else 0) + (if Nat.odd (k / 4) then 4 else 0)) ltac:(cbn; auto 10) B4) as (w5 & -> & B5).
  destruct (hi_step_ok H1 1 k w5 (0 + (if Nat.odd (k / 32) then 32 else 0) + (if Nat.odd (k / 16) then 16 else 0) + (if Nat.odd (k / 8) then 8 else 0) + (if Nat.odd (k / 4) then 4 else 0) + (if Nat.odd (k / 2) then 2 else 0)) ltac:(cbn; auto 10) B5) as (w6 & E6 & _).
  destruct Hk as (Hk & _). cbn [fst snd]. unfold hi_step in E6. cbn [fst snd] in E6.
  assert (F : forallb (fun k => (0 + (if Nat.odd (k / 32) then 32 else 0) + (if Nat.odd (k / 16) then 16 else 0) + (if Nat.odd (k / 8) then 8 else 0) + (if Nat.odd (k / 4) then 4 else 0) + (if Nat.odd (k / 2) then 2 else 0) + (if Nat.odd (k / 1) then 1 else 0) =? k)%nat) (seq 0 64) = true) by (vm_compute; reflexivity).
  rewrite forallb_forall in F. specialize (F k). rewrite in_seq in F. specialize (F ltac:(lia)). apply Nat.eqb_eq in F.
  destruct (Z.land w5 H1 =? 0); apply (f_equal fst) in E6; cbn [fst] in E6; lia.
Qed.
