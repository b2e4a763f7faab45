(** Conversion of exact numbers to doubles *)
From Coq Require Import ZArith List Bool Lia.
From Verif Require Import Outcome BignumModel IntModel RatModel FloModel FloSpec FloProofs InexModel.
Import ListNotations.
Local Open Scope Z_scope.
Ltac Zify.zify_post_hook ::= idtac.

(** round N/D to the nearest integer, ties to even *)
Definition rne (N D : Z) : Z := let m := N / D in let r := N mod D in if (D <? 2 * r) || ((2 * r =? D) && Z.odd m) then m + 1 else m.
Definition pack (m e : Z) : flo := let mj := if m =? p53 then (p52, e + 1) else (m, e) in if 971 <? snd mj then Inf else Fin (fst mj) (snd mj).
Lemma rne_scale N D c : 0 < D -> 0 < c -> rne (N * c) (D * c) = rne N D.
Proof.
  intros HD Hc. unfold rne. rewrite Z.div_mul_cancel_r, Z.mul_mod_distr_r by lia. replace (D * c <? 2 * (N mod D * c)) with (D <? 2 * (N mod D)).
  - replace (2 * (N mod D * c) =? D * c) with (2 * (N mod D) =? D); [reflexivity|]. destruct (Z.eqb_spec (2 * (N mod D)) D); symmetry; [apply Z.eqb_eq|apply Z.eqb_neq]; nia.
  - destruct (Z.ltb_spec D (2 * (N mod D))); symmetry; [apply Z.ltb_lt|apply Z.ltb_ge]; nia.
Qed.
(** the value in terms of quotient and remainder *)
Lemma rne_eq N D m r : 0 < D -> N = D * m + r -> 0 <= r < D -> rne N D = if (D <? 2 * r) || ((2 * r =? D) && Z.odd m) then m + 1 else m.
Proof. intros HD E Hr. unfold rne. assert (Q : N / D = m) by (symmetry; apply (Z.div_unique N D m r); auto). assert (R : N mod D = r) by (symmetry; apply (Z.mod_unique N D m r); auto). now rewrite Q, R. Qed.
Lemma rnd_pack N D : 0 < D -> p52 * D <= N -> rnd N D = pack (rne N (D * 2 ^ (Z.log2 (N / D) - 52))) (Z.log2 (N / D) - 52 - 1074).
Proof.
  intros HD HN. assert (Q : p52 <= N / D) by (apply Z.div_le_lower_bound; lia). unfold rnd.
  assert (J : (if N / D <? p53 then 0 else Z.log2 (N / D) - 52) = Z.log2 (N / D) - 52).
  { destruct (Z.ltb_spec (N / D) p53); [|reflexivity]. assert (L : Z.log2 (N / D) = 52) by (apply Z.log2_unique; [lia|]; exact (conj Q H)). rewrite L. reflexivity. }
  rewrite J. set (j := Z.log2 (N / D) - 52). fold (rne N (D * 2 ^ j)). unfold pack. destruct (rne N (D * 2 ^ j) =? p53); cbn [fst snd].
  - replace (971 <? j - 1074 + 1) with (2045 <? j + 1). 2: { destruct (Z.ltb_spec 2045 (j + 1)); symmetry; [apply Z.ltb_lt|apply Z.ltb_ge]; lia. } now replace (j - 1074 + 1) with (j + 1 - 1074) by lia.
  - replace (971 <? j - 1074) with (2045 <? j); [reflexivity|]. destruct (Z.ltb_spec 2045 j); symmetry; [apply Z.ltb_lt|apply Z.ltb_ge]; lia.
Qed.
Lemma int_pack Q : p52 <= Q -> int_to_double Q = pack (rne Q (2 ^ (Z.log2 Q - 52))) (Z.log2 Q - 52).
Proof.
  intros H. unfold int_to_double. assert (P : 0 < 2 ^ 1074) by (apply Z.pow_pos_nonneg; lia). assert (P52 : 0 < p52) by reflexivity. assert (L52 : 52 <= Z.log2 Q) by (apply Z.log2_le_pow2; [lia|exact H]).
  rewrite rnd_pack; [|lia|nia]. rewrite Z.div_1_r. rewrite Z.log2_mul_pow2 by lia. replace (1 * 2 ^ (1074 + Z.log2 Q - 52)) with (2 ^ (Z.log2 Q - 52) * 2 ^ 1074).
  - rewrite rne_scale by (auto; apply Z.pow_pos_nonneg; lia). f_equal. lia.
  - rewrite <- Z.pow_add_r by lia. rewrite Z.mul_1_l. f_equal. lia.
Qed.
(** ** Scm_BignumToDouble *)
Lemma testbit_low b n : 0 <= b -> 0 <= n -> Z.testbit b n = (2 ^ n <=? b mod 2 ^ (n + 1)).
Proof.
  intros Hb Hn. rewrite Z.testbit_spec' with (a := b) (n := n) || idtac. destruct (Z.testbit b n) eqn:T.
  - symmetry. apply Z.leb_le. apply Z.testbit_true in T; auto. assert (P : 0 < 2 ^ n) by (apply Z.pow_pos_nonneg; lia). rewrite Z.pow_add_r by lia. change (2 ^ 1) with 2. rewrite Z.rem_mul_r by lia. rewrite T. pose proof (Z.mod_pos_bound b (2 ^ n) P). lia.
  - symmetry. apply Z.leb_gt. apply Z.testbit_false in T; auto. assert (P : 0 < 2 ^ n) by (apply Z.pow_pos_nonneg; lia). rewrite Z.pow_add_r by lia. change (2 ^ 1) with 2. rewrite Z.rem_mul_r by lia. rewrite T. pose proof (Z.mod_pos_bound b (2 ^ n) P). lia.
Qed.
Lemma bignum_to_double_ok b : 2 ^ 54 <= b -> bignum_to_double b = int_to_double b.
Proof.
  intros H. assert (L : 54 <= Z.log2 b) by (apply Z.log2_le_pow2; [lia|exact H]). pose proof (Z.log2_spec b ltac:(lia)) as [B1 B2]. rewrite int_pack by (apply Z.le_trans with (2 ^ 54); [discriminate|exact H]).
  set (h := Z.log2 b) in *. set (e := h - 52). assert (He : 2 <= e) by (unfold e; lia). assert (P : 0 < 2 ^ e) by (apply Z.pow_pos_nonneg; lia). assert (PH : 0 < 2 ^ (e - 1)) by (apply Z.pow_pos_nonneg; lia).
  assert (E2 : 2 ^ e = 2 * 2 ^ (e - 1)). { replace e with (1 + (e - 1)) at 1 by lia. rewrite Z.pow_add_r by lia. reflexivity. }
  set (M := b / 2 ^ e). set (R := b mod 2 ^ e). assert (DM : b = 2 ^ e * M + R) by (apply Z.div_mod; lia). assert (HR : 0 <= R < 2 ^ e) by (apply Z.mod_pos_bound; lia).
  assert (PE : 2 ^ h = 2 ^ 52 * 2 ^ e) by (rewrite <- Z.pow_add_r by lia; f_equal; unfold e; lia). assert (PE' : 2 ^ Z.succ h = 2 ^ 53 * 2 ^ e) by (rewrite <- Z.pow_add_r by lia; f_equal; unfold e; lia).
  assert (HM : 2 ^ 52 <= M < 2 ^ 53). { split; [apply Z.div_le_lower_bound; lia|apply Z.div_lt_upper_bound; lia]. }
  rewrite (rne_eq b (2 ^ e) M R P DM HR). 
  unfold bignum_to_double, bignum_fields. fold h. replace (h - 53) with (e - 1) by (unfold e; lia). fold e. fold M.
  rewrite testbit_low by lia. replace (e - 1 + 1) with e by lia. fold R.
  assert (ML : M mod 2 ^ 52 = M - 2 ^ 52). { symmetry. apply (Z.mod_unique M (2 ^ 52) 1); [left; change (2 ^ 53) with (2 * 2 ^ 52) in HM; lia|lia]. }
  assert (OD : ((M mod 2 ^ 52) mod 2 =? 1) = Z.odd M). { rewrite ML. replace (M - 2 ^ 52) with (M + (- 2 ^ 51) * 2) by (change (2 ^ 52) with (2 ^ 51 * 2); lia). rewrite Z.mod_add by lia. rewrite Zmod_odd. now destruct (Z.odd M). }
  assert (LOW : 2 ^ (e - 1) <= R -> b mod 2 ^ (e - 1) = R - 2 ^ (e - 1)). { intros HL. symmetry. apply (Z.mod_unique b (2 ^ (e - 1)) (2 * M + 1)); [left; lia|]. rewrite DM, E2. ring. }
  assert (C : (2 ^ (e - 1) <=? R) && (((M mod 2 ^ 52) mod 2 =? 1) || negb (b mod 2 ^ (e - 1) =? 0)) = (2 ^ e <? 2 * R) || ((2 * R =? 2 ^ e) && Z.odd M)).
  { rewrite OD. destruct (Z.leb_spec (2 ^ (e - 1)) R) as [HL|HL].
    - rewrite (LOW HL). cbn [andb]. destruct (Z.eqb_spec (R - 2 ^ (e - 1)) 0) as [Z0|N0].
      + rewrite (proj2 (Z.ltb_ge _ _)) by lia. rewrite (proj2 (Z.eqb_eq _ _)) by lia. cbn [orb negb andb]. now rewrite orb_false_r.
      + rewrite (proj2 (Z.ltb_lt _ _)) by lia. cbn [negb orb]. now rewrite orb_true_r.
    - cbn [andb]. rewrite (proj2 (Z.ltb_ge _ _)) by lia. rewrite (proj2 (Z.eqb_neq _ _)) by lia. reflexivity. }
  rewrite C. destruct ((2 ^ e <? 2 * R) || ((2 * R =? 2 ^ e) && Z.odd M)).
  - rewrite ML. destruct (Z.leb_spec (2 ^ 52) (M - 2 ^ 52 + 1)) as [O|O].
    + assert (EM : M + 1 = 2 ^ 53) by lia. replace (M - 2 ^ 52 + 1) with (2 ^ 52) by lia. change (Z.land (2 ^ 52) (Z.lnot (2 ^ 52)) / 2) with 0. unfold pack. rewrite EM. change (2 ^ 53 =? p53) with true. cbn [fst snd].
      destruct (Z.ltb_spec 2046 (h + 1023 + 1)); destruct (Z.ltb_spec 971 (e + 1)); try (unfold e in *; lia); unfold encode_fields; cbn [fst snd]. { reflexivity. }
      rewrite (proj2 (Z.eqb_neq _ _)) by lia. f_equal. unfold e. lia.
    + unfold pack. rewrite (proj2 (Z.eqb_neq (M + 1) p53)) by (unfold p53; lia). cbn [fst snd]. destruct (Z.ltb_spec 2046 (h + 1023)); destruct (Z.ltb_spec 971 e); try (unfold e in *; lia); unfold encode_fields; cbn [fst snd]. { reflexivity. }
      rewrite (proj2 (Z.eqb_neq _ _)) by lia. f_equal; unfold e; lia.
  - rewrite ML. unfold pack. rewrite (proj2 (Z.eqb_neq M p53)) by (unfold p53; lia). cbn [fst snd]. destruct (Z.ltb_spec 2046 (h + 1023)); destruct (Z.ltb_spec 971 e); try (unfold e in *; lia); unfold encode_fields; cbn [fst snd]. { reflexivity. }
    rewrite (proj2 (Z.eqb_neq _ _)) by lia. f_equal; unfold e; lia.
Qed.

(** ** Scm_GetDouble of a ratnum *)
Lemma ldexp_pack m e s : p52 <= m <= p53 -> 0 <= s -> -1074 <= e - s -> s = 0 \/ e <= 900 -> ldexp_down (pack m e) s = pack m (e - s).
Proof.
  intros Hm Hs He Hc.
  assert (G : forall m k, p52 <= m < p53 -> k <= 971 -> -1074 <= k - s -> rnd (sv m k) (2 ^ s) = Fin m (k - s)).
  { clear m e Hm He Hc. intros m k Hm Hk He. assert (P : 0 < 2 ^ s) by (apply Z.pow_pos_nonneg; lia). unfold sv. assert (PJ : 0 < 2 ^ (k - s + 1074)) by (apply Z.pow_pos_nonneg; lia).
    assert (E : m * 2 ^ (k + 1074) = m * 2 ^ (k - s + 1074) * 2 ^ s). { rewrite <- Z.mul_assoc, <- Z.pow_add_r by lia. do 2 f_equal. lia. }
    assert (L : Z.log2 (m * 2 ^ (k - s + 1074)) = 52 + (k - s + 1074)). { rewrite Z.log2_mul_pow2 by (unfold p52 in *; lia). assert (L52 : Z.log2 m = 52) by (apply Z.log2_unique; [lia|]; exact Hm). lia. }
    rewrite rnd_pack; [|lia|]. 2: { rewrite E. apply Z.mul_le_mono_nonneg_r; [lia|]. unfold p52 in *. nia. }
    rewrite E, Z.div_mul by lia. rewrite L. replace (52 + (k - s + 1074) - 52) with (k - s + 1074) by lia.
    rewrite (Z.mul_comm (2 ^ s)). rewrite rne_scale by lia. rewrite (rne_eq _ _ m 0) by lia. rewrite (proj2 (Z.ltb_ge _ _)), (proj2 (Z.eqb_neq (2 * 0) _)) by lia. cbn [orb andb]. unfold pack. rewrite (proj2 (Z.eqb_neq m p53)) by lia. cbn [fst snd]. replace (k - s + 1074 - 1074) with (k - s) by lia. now rewrite (proj2 (Z.ltb_ge 971 _)) by lia. }
  unfold pack. destruct (Z.eqb_spec m p53) as [E|N]; cbn [fst snd].
  - destruct (Z.ltb_spec 971 (e + 1)); cbn [ldexp_down].
    + destruct Hc as [->|Hc]; [|lia]. replace (e - 0 + 1) with (e + 1) by lia. now rewrite (proj2 (Z.ltb_lt 971 _)) by lia.
    + rewrite G by (unfold p52, p53 in *; lia). replace (e + 1 - s) with (e - s + 1) by lia. now rewrite (proj2 (Z.ltb_ge 971 _)) by lia.
  - destruct (Z.ltb_spec 971 e); cbn [ldexp_down].
    + destruct Hc as [->|Hc]; [|lia]. replace (e - 0) with e by lia. now rewrite (proj2 (Z.ltb_lt 971 _)) by lia.
    + rewrite G by lia. now rewrite (proj2 (Z.ltb_ge 971 _)) by lia.
Qed.
Lemma low_bit v k : 0 <= v -> Z.land (2 ^ v * (2 * k + 1)) (- (2 ^ v * (2 * k + 1))) = 2 ^ v.
Proof.
  intros Hv. replace (- (2 ^ v * (2 * k + 1))) with ((2 * (- k - 1) + 1) * 2 ^ v) by ring. rewrite Z.mul_comm with (n := 2 ^ v). rewrite <- !Z.shiftl_mul_pow2 by auto. rewrite <- Z.shiftl_land.
  replace (Z.land (2 * k + 1) (2 * (- k - 1) + 1)) with 1. { rewrite Z.shiftl_mul_pow2 by auto. lia. }
  apply Z.bits_inj'. intros n Hn. rewrite Z.land_spec. destruct (Z.eq_dec n 0) as [->|N]. { now rewrite !Z.testbit_odd_0. }
  replace n with (Z.succ (n - 1)) by lia. rewrite !Z.testbit_odd_succ by lia. replace (- k - 1) with (Z.lnot k) by (unfold Z.lnot; lia). rewrite Z.lnot_spec by lia. rewrite andb_negb_r. change 1 with (2 * 0 + 1). rewrite Z.testbit_odd_succ by lia. now rewrite Z.bits_0.
Qed.
Lemma odd_part n : 0 < n -> exists v k, 0 <= v /\ n = 2 ^ v * (2 * k + 1).
Proof.
  intros H. assert (G : forall m x, (Z.to_nat x < m)%nat -> 0 < x -> exists v k, 0 <= v /\ x = 2 ^ v * (2 * k + 1)).
  { clear. induction m as [|m IH]; intros x L P; [lia|]. destruct (Z.Even_or_Odd x) as [(y & E)|(y & E)].
    - destruct (IH y) as (v & k & Hv & Ey); [lia|lia|]. exists (v + 1), k. split; [lia|]. rewrite Z.pow_add_r by lia. change (2 ^ 1) with 2. lia.
    - exists 0, y. split; [lia|]. change (2 ^ 0) with 1. lia. }
  apply (G (S (Z.to_nat n)) n); [lia|auto].
Qed.
Lemma dp_divides n e : 0 < n -> e = Z.log2 n - 52 -> 0 <= e -> double_precision n = true -> (2 ^ e | n).
Proof.
  intros H E He D. unfold double_precision, hi_bit, lo_bit in D. apply Z.ltb_lt in D. destruct (odd_part n H) as (v & k & Hv & En). rewrite En in D at 2 3. rewrite low_bit in D by auto. rewrite Z.log2_pow2 in D by auto.
  assert (L : e <= v) by lia. rewrite En. apply Z.divide_mul_l. exists (2 ^ (v - e)). rewrite <- Z.pow_add_r by lia. f_equal. lia.
Qed.
Lemma rat_full_ok n d : 0 < n -> 0 < d -> d <= n * 2 ^ 1022 -> rat_full n d = rnd (n * 2 ^ 1074) d.
Proof.
  intros Hn Hd HN. 
  assert (PK : forall x, 0 <= x -> 2 ^ (x + 1022) = 2 ^ x * 2 ^ 1022) by (intros; apply Z.pow_add_r; lia). assert (PU : forall x, 0 <= x -> 2 ^ (x + 1074) = 2 ^ x * 2 ^ 1074) by (intros; apply Z.pow_add_r; lia).
  assert (UK : 2 ^ 1074 = 2 ^ 52 * 2 ^ 1022) by (exact (Z.pow_add_r 2 52 1022 ltac:(lia) ltac:(lia))). assert (K0 : 0 < 2 ^ 1022) by (apply Z.pow_pos_nonneg; lia). assert (U0 : 0 < 2 ^ 1074) by (apply Z.pow_pos_nonneg; lia).
  revert HN PK PU UK K0 U0. generalize (2 ^ 1022). generalize (2 ^ 1074). intros U K HN PK PU UK K0 U0. unfold rat_full, hi_bit.
  set (s := if Z.log2 n - Z.log2 d <? 54 then 54 - (Z.log2 n - Z.log2 d) else 0).
  pose proof (Z.log2_spec n Hn) as [N1 N2]. pose proof (Z.log2_spec d Hd) as [D1 D2]. pose proof (Z.log2_nonneg n). pose proof (Z.log2_nonneg d).
  assert (Hs : 0 <= s /\ 54 <= Z.log2 n + s - Z.log2 d /\ (s = 0 \/ Z.log2 n + s - Z.log2 d = 54)) by (unfold s; destruct (Z.ltb_spec (Z.log2 n - Z.log2 d) 54); lia). clearbody s. destruct Hs as (Hs & Hb & Hc).
  assert (PS : 0 < 2 ^ s) by (apply Z.pow_pos_nonneg; lia). set (n' := n * 2 ^ s). set (quo := n' / d). set (rem := n' mod d).
  assert (DM : n' = d * quo + rem) by (apply Z.div_mod; lia). assert (HR : 0 <= rem < d) by (apply Z.mod_pos_bound; lia).
  assert (B1 : 2 ^ (Z.log2 n + s) <= n') by (unfold n'; rewrite Z.pow_add_r by lia; nia). assert (B2 : n' < 2 ^ (Z.log2 n + s + 1)). { unfold n'. replace (Z.log2 n + s + 1) with (Z.succ (Z.log2 n) + s) by lia. rewrite Z.pow_add_r by lia. nia. }
  assert (Q53 : 2 ^ 53 <= quo). { apply Z.div_le_lower_bound; auto. apply Z.le_trans with (2 ^ (Z.log2 n + s)); auto. apply Z.le_trans with (2 ^ Z.succ (Z.log2 d) * 2 ^ 53); [nia|]. rewrite <- Z.pow_add_r by lia. apply Z.pow_le_mono_r; lia. }
  assert (QU : s = 0 \/ quo < 2 ^ 55). { destruct Hc as [->|Hc]; auto. right. apply Z.div_lt_upper_bound; auto. apply Z.lt_le_trans with (1 := B2). apply Z.le_trans with (2 ^ Z.log2 d * 2 ^ 55); [|nia]. rewrite <- Z.pow_add_r by lia. apply Z.pow_le_mono_r; lia. }
  set (h := Z.log2 quo). pose proof (Z.log2_spec quo ltac:(lia)) as [Q1 Q2]. fold h in Q1, Q2. assert (H53 : 53 <= h) by (apply Z.log2_le_pow2; [lia|exact Q53]).
  assert (H55 : s = 0 \/ h <= 54). { destruct QU as [->|QU]; auto. right. apply Z.lt_succ_r. apply Z.log2_lt_pow2; [lia|exact QU]. }
  (* the value is at least 2^-1022 *)
  assert (HS : s <= 1022 + h). { destruct (Z.le_gt_cases s (1022 + h)) as [|G]; auto. exfalso. assert (X : n' < d * 2 ^ Z.succ h) by nia. assert (Y : d * 2 ^ s <= n' * K) by (unfold n'; replace (n * 2 ^ s * K) with (n * K * 2 ^ s) by ring; apply Z.mul_le_mono_nonneg_r; lia).
    assert (W : n' * K < d * 2 ^ (Z.succ h + 1022)). { rewrite PK by lia. rewrite Z.mul_assoc. apply Z.mul_lt_mono_pos_r; lia. } assert (V : 2 ^ (Z.succ h + 1022) <= 2 ^ s) by (apply Z.pow_le_mono_r; lia). nia. }
  assert (NM : s <= 1076) by (destruct H55; lia). rewrite (proj2 (Z.ltb_ge 1076 s)) by lia.
  set (e := h - 52). assert (He : 1 <= e) by (unfold e; lia). assert (P : 0 < 2 ^ e) by (apply Z.pow_pos_nonneg; lia). assert (PH : 0 < 2 ^ (e - 1)) by (apply Z.pow_pos_nonneg; lia).
  assert (E2 : 2 ^ e = 2 * 2 ^ (e - 1)). { replace e with (1 + (e - 1)) at 1 by lia. rewrite Z.pow_add_r by lia. reflexivity. }
  set (M := quo / 2 ^ e). set (L := quo mod 2 ^ e). assert (DQ : quo = 2 ^ e * M + L) by (apply Z.div_mod; lia). assert (HL : 0 <= L < 2 ^ e) by (apply Z.mod_pos_bound; lia).
  assert (PE : 2 ^ h = 2 ^ 52 * 2 ^ e) by (rewrite <- Z.pow_add_r by lia; f_equal; unfold e; lia). assert (PE' : 2 ^ Z.succ h = 2 ^ 53 * 2 ^ e) by (rewrite <- Z.pow_add_r by lia; f_equal; unfold e; lia).
  assert (HM : 2 ^ 52 <= M < 2 ^ 53). { split; [apply Z.div_le_lower_bound; lia|apply Z.div_lt_upper_bound; lia]. }
  (* the right answer *)
  assert (RT : rnd (n * U) d = pack (rne n' (d * 2 ^ e)) (e - s)).
  { assert (LG : Z.log2 (n * U / d) = h + 1074 - s).
    { apply Z.log2_unique; [lia|]. assert (X1 : d * 2 ^ (h + 1074 - s) <= n * U). { apply Z.mul_le_mono_pos_r with (2 ^ s); auto. replace (n * U * 2 ^ s) with (n' * U) by (unfold n'; ring). rewrite <- Z.mul_assoc, <- Z.pow_add_r by lia. replace (h + 1074 - s + s) with (h + 1074) by lia. rewrite PU by lia. rewrite Z.mul_assoc. apply Z.mul_le_mono_nonneg_r; [lia|]. nia. }
      assert (X2 : n * U < d * 2 ^ Z.succ (h + 1074 - s)). { apply Z.mul_lt_mono_pos_r with (2 ^ s); auto. replace (n * U * 2 ^ s) with (n' * U) by (unfold n'; ring). rewrite <- Z.mul_assoc, <- Z.pow_add_r by lia. replace (Z.succ (h + 1074 - s) + s) with (Z.succ h + 1074) by lia. rewrite PU by lia. rewrite Z.mul_assoc. apply Z.mul_lt_mono_pos_r; [lia|]. nia. }
      split; [apply Z.div_le_lower_bound; lia|apply Z.div_lt_upper_bound; lia]. }
    rewrite rnd_pack; auto. 2: { rewrite UK. unfold p52. replace (n * (2 ^ 52 * K)) with (2 ^ 52 * (n * K)) by ring. apply Z.mul_le_mono_nonneg_l; lia. }
    rewrite LG. f_equal; [|unfold e; lia]. replace (h + 1074 - s - 52) with (e + 1074 - s) by (unfold e; lia). unfold n'.
    rewrite <- (rne_scale (n * U) (d * 2 ^ (e + 1074 - s)) (2 ^ s)); [|assert (0 < 2 ^ (e + 1074 - s)) by (apply Z.pow_pos_nonneg; lia); nia|auto].
    rewrite <- (rne_scale (n * 2 ^ s) (d * 2 ^ e) U); [|nia|exact U0]. f_equal; [ring|]. rewrite <- !Z.mul_assoc. f_equal. rewrite <- PU by lia. rewrite <- Z.pow_add_r by lia. f_equal. lia. }
  rewrite RT. clear RT.
  assert (DE : n' = d * 2 ^ e * M + (d * L + rem)) by (rewrite DM, DQ; ring). assert (HDL : 0 <= d * L + rem < d * 2 ^ e) by nia.
  rewrite (rne_eq n' (d * 2 ^ e) M (d * L + rem)) by (auto; nia).
  assert (FIN : forall m, p52 <= m <= p53 -> ldexp_down (pack m e) s = pack m (e - s)). { intros m Hm. apply ldexp_pack; auto; [unfold e; lia|]. destruct H55; [now left|right; unfold e; lia]. }
  assert (CONV : forall Q m r, Q = 2 ^ e * m + r -> 0 <= r < 2 ^ (e - 1) -> 2 ^ 52 <= m <= 2 ^ 53 -> ldexp_down (int_to_double Q) s = pack m (e - s)).
  { intros Q m r EQ Hr Hm. rewrite <- FIN by exact Hm. f_equal. assert (Q52 : p52 <= Q) by (unfold p52; nia). rewrite int_pack by exact Q52. destruct (Z.eq_dec m (2 ^ 53)) as [Em|Nm].
    - assert (LQ : Z.log2 Q = h + 1). { apply Z.log2_unique; [lia|]. replace (h + 1) with (e + 53) by (unfold e; lia). rewrite Z.pow_succ_r, Z.pow_add_r by lia. split; nia. }
      rewrite LQ. replace (h + 1 - 52) with (e + 1) by (unfold e; lia). rewrite (rne_eq Q (2 ^ (e + 1)) (2 ^ 52) r); [|apply Z.pow_pos_nonneg; lia| |]. 2: { rewrite Z.pow_add_r by lia. rewrite EQ, Em. ring. } 2: { rewrite Z.pow_add_r by lia. lia. }
      rewrite Z.pow_add_r by lia. rewrite (proj2 (Z.ltb_ge _ _)), (proj2 (Z.eqb_neq (2 * r) _)) by lia. cbn [orb andb]. rewrite Em. reflexivity.
    - assert (LQ : Z.log2 Q = h). { apply Z.log2_unique; [lia|]. rewrite PE', PE. assert (m <= 2 ^ 53 - 1) by lia. assert (A1 : 2 ^ 52 * 2 ^ e <= m * 2 ^ e) by (apply Z.mul_le_mono_nonneg_r; lia). assert (A2 : m * 2 ^ e <= (2 ^ 53 - 1) * 2 ^ e) by (apply Z.mul_le_mono_nonneg_r; lia). split; lia. } rewrite LQ. fold e. rewrite (rne_eq Q (2 ^ e) m r) by lia. rewrite (proj2 (Z.ltb_ge _ _)), (proj2 (Z.eqb_neq (2 * r) _)) by lia. reflexivity. }
  assert (LOWR : d * L + rem < d * 2 ^ (e - 1) -> (if (d * 2 ^ e <? 2 * (d * L + rem)) || ((2 * (d * L + rem) =? d * 2 ^ e) && Z.odd M) then M + 1 else M) = M). { intros KK. rewrite E2. rewrite (proj2 (Z.ltb_ge _ _)), (proj2 (Z.eqb_neq (2 * (d * L + rem)) _)) by lia. reflexivity. }
  destruct (double_precision quo) eqn:DP.
  { assert (L0 : L = 0). { apply Z.mod_divide; [lia|]. apply dp_divides; auto; lia. } rewrite LOWR by (rewrite L0, Z.mul_0_r; apply Z.lt_le_trans with (d * 1); [lia|apply Z.mul_le_mono_nonneg_l; lia]). apply (CONV quo M 0); lia. }
  fold h. replace (h - 53) with (e - 1) by (unfold e; lia). replace (h - 52) with e by (unfold e; lia).
  rewrite testbit_low by lia. replace (e - 1 + 1) with e by lia. fold L. destruct (Z.leb_spec (2 ^ (e - 1)) L) as [HH|HH]; cbn [negb].
  2: { rewrite LOWR by (apply Z.lt_le_trans with (d * (L + 1)); [lia|apply Z.mul_le_mono_nonneg_l; lia]). apply (CONV quo M L); lia. }
  assert (LND : Z.land quo (2 ^ (e - 1) - 1) = L - 2 ^ (e - 1)). { replace (2 ^ (e - 1) - 1) with (Z.ones (e - 1)) by (rewrite Z.ones_equiv; lia). rewrite Z.land_ones by lia. symmetry. apply (Z.mod_unique quo (2 ^ (e - 1)) (2 * M + 1)); [left; lia|]. rewrite DQ, E2. ring. }
  rewrite LND. destruct (negb (rem =? 0) || negb (L - 2 ^ (e - 1) =? 0)) eqn:UP.
  - assert (KK : rem <> 0 \/ L - 2 ^ (e - 1) <> 0). { apply orb_true_iff in UP. destruct UP as [X|X]; apply negb_true_iff, Z.eqb_neq in X; auto. } rewrite (proj2 (Z.ltb_lt (d * 2 ^ e) _)). 2: { rewrite E2. destruct (Z.eq_dec L (2 ^ (e - 1))) as [->|NL]; [lia|]. assert (d * (2 ^ (e - 1) + 1) <= d * L) by (apply Z.mul_le_mono_nonneg_l; lia). lia. } cbn [orb]. apply (CONV _ (M + 1) (L - 2 ^ (e - 1))); [rewrite DQ, E2; ring|lia|lia].
  - apply orb_false_iff in UP. destruct UP as [U1 U2]. apply negb_false_iff, Z.eqb_eq in U1, U2. rewrite U1. assert (EL : L = 2 ^ (e - 1)) by lia. rewrite EL. rewrite E2. rewrite (proj2 (Z.ltb_ge _ _)) by lia. rewrite (proj2 (Z.eqb_eq _ _)) by lia. cbn [orb andb].
    assert (TB : Z.testbit quo e = Z.odd M). { rewrite <- Z.bit0_odd. unfold M. rewrite Z.div_pow2_bits by lia. rewrite Z.add_0_l. reflexivity. }
    rewrite TB. destruct (Z.odd M) eqn:OM; cbn [negb].
    + assert (M1 : p52 <= M + 1 <= p53) by (clear - HM; unfold p52, p53; lia). rewrite <- (FIN (M + 1) M1). f_equal. rewrite int_pack by (clear - Q53; unfold p52; lia). fold h. fold e. rewrite (rne_eq quo (2 ^ e) M L) by lia. rewrite EL, E2. rewrite (proj2 (Z.ltb_ge _ _)) by lia. rewrite (proj2 (Z.eqb_eq _ _)) by lia. rewrite OM. reflexivity.
    + apply (CONV _ M 0); lia.
Qed.
Lemma rat_to_double_ok n d : 0 < n -> 0 < d -> d <= n * 2 ^ 1022 -> rat_to_double n d = rnd (n * 2 ^ 1074) d.
Proof.
  intros. unfold rat_to_double. rewrite rat_full_ok by auto. destruct (double_precision n && double_precision d); auto. destruct (int_to_double n); auto. now destruct (int_to_double d).
Qed.
