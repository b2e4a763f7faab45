(** Proofs about RzModel: exact of a flonum *)
From Coq Require Import ZArith Znumtheory Zpow_facts QArith Qabs List Bool Lia Qcanon Lqa.
From Verif Require Import Outcome FloModel FloSpec FloProofs InexSpec RzModel RzSpec RzProofs RzProofs2.
Import ListNotations.
Local Open Scope Z_scope.
Ltac Zify.zify_post_hook ::= idtac.

Lemma scale_compare n c e a b U C : Qnum e * C = U * Z.pos (Qden e) -> 0 < C -> ((n # c) * e ?= a # b)%Q = (n * U * Z.pos b ?= Z.pos c * a * C).
Proof.
  intros H HC. destruct e as [E F]. cbn [Qnum Qden] in H. unfold Qcompare, Qmult. cbn [Qnum Qden]. rewrite Pos2Z.inj_mul.
  assert (T : forall X Y k, 0 < k -> (X * k ?= Y * k) = (X ?= Y)). { intros X Y k K. rewrite !(Z.mul_comm _ k). symmetry. apply Zmult_compare_compat_l. lia. }
  rewrite <- (T _ _ C HC), <- (T (n * U * _) _ (Z.pos F) eq_refl). f_equal; [|ring]. transitivity (n * (E * C) * Z.pos b); [ring|]. rewrite H. ring.
Qed.
Definition C1074 : Z := 2 ^ 1074.
Lemma C_pos : 0 < C1074. Proof. apply Z.pow_pos_nonneg; lia. Qed.
Lemma pow2_units k : -1074 <= k -> Qnum (pow2 k) * C1074 = ulp k * Z.pos (Qden (pow2 k)).
Proof.
  intros K. unfold pow2, ulp, C1074. destruct (Z.leb_spec 0 k) as [L|L].
  - cbn [inject_Z Qnum Qden]. rewrite Z.pow_add_r by lia. ring.
  - cbn [Qnum Qden]. rewrite Z2Pos.id by (apply Z.pow_pos_nonneg; lia). rewrite <- Z.pow_add_r by lia. replace (k + 1074 + - k) with 1074 by lia. ring.
Qed.
Lemma pow2_pos_q k : (0 < pow2 k)%Q.
Proof. unfold pow2. destruct (Z.leb_spec 0 k) as [L|L]; [|reflexivity]. unfold Qlt. cbn [inject_Z Qnum Qden]. pose proof (Z.pow_pos_nonneg 2 k ltac:(lia) L). lia. Qed.
Lemma pow2_half k : (pow2 (k - 1) == (1 # 2) * pow2 k)%Q.
Proof.
  unfold pow2. destruct (Z.leb_spec 0 k) as [L|L], (Z.leb_spec 0 (k - 1)) as [L'|L']; try lia.
  - replace k with (Z.succ (k - 1)) at 2 by lia. rewrite Z.pow_succ_r by lia. unfold Qeq, Qmult, inject_Z. cbn [Qnum Qden]. lia.
  - assert (k = 0) by lia. subst. reflexivity.
  - unfold Qeq, Qmult. cbn [Qnum Qden]. rewrite Pos2Z.inj_mul, !Z2Pos.id by (apply Z.pow_pos_nonneg; lia). replace (- (k - 1)) with (Z.succ (- k)) by lia. rewrite Z.pow_succ_r by lia. ring.
Qed.
(** the ends of the interval in which numbers are rounded to m * 2^k *)
Definition lower_end (m k : Z) : Q := if (m =? 2 ^ 52) && (-1074 <? k) then ((4 * m - 1) # 4) * pow2 k else ((2 * m - 1) # 2) * pow2 k.
Definition upper_end (m k : Z) : Q := ((2 * m + 1) # 2) * pow2 k.
Definition rounding (m k : Z) : Q -> Prop := if Z.odd m then opened (lower_end m k) (upper_end m k) else closed (lower_end m k) (upper_end m k).
Lemma rounding_Qeq m k p q : (p == q)%Q -> rounding m k p -> rounding m k q.
Proof. intros E. unfold rounding. destruct (Z.odd m); unfold opened, closed; now rewrite E. Qed.
Lemma upper_iff m k a b : is_double m k -> (upper_ok (a * C1074) (Z.pos b) m k <-> if Z.odd m then (a # b < upper_end m k)%Q else (a # b <= upper_end m k)%Q).
Proof.
  intros (K & _). unfold upper_ok, upper_end. rewrite units_ulp. pose proof (scale_compare (2 * m + 1) 2 (pow2 k) a b (ulp k) C1074 (pow2_units k K) C_pos) as SC.
  assert (CO : ((a # b) ?= ((2 * m + 1) # 2) * pow2 k)%Q = CompOpp ((2 * m + 1) * ulp k * Z.pos b ?= 2 * a * C1074)) by (rewrite <- SC; symmetry; apply Qcompare_antisym).
  rewrite <- Z.negb_odd. replace (2 * (m * ulp k) + ulp k) with ((2 * m + 1) * ulp k) by ring. rewrite (Z.mul_assoc 2 a).
  set (X := (2 * m + 1) * ulp k * Z.pos b) in *. set (Y := 2 * a * C1074) in *. clearbody X Y. clear SC.
  destruct (Z.odd m); [rewrite Qlt_alt, CO|rewrite Qle_alt, CO]; destruct (Z.compare_spec X Y) as [E|E|E]; cbn [CompOpp negb]; split; intros H; try congruence; try lia; try (destruct H as (H1 & H2); specialize (H2 (eq_sym E)); discriminate); split; intros; try congruence; lia.
Qed.
Lemma lower_iff m k a b : is_double m k -> 0 < m -> (lower_ok (a * C1074) (Z.pos b) m k <-> if Z.odd m then (lower_end m k < a # b)%Q else (lower_end m k <= a # b)%Q).
Proof.
  intros (K & _) Hm. unfold lower_ok, lower_end, gap_below. rewrite units_ulp.
  assert (T : forall X Y, (m = 0 \/ X <= Y /\ (X = Y -> Z.even m = true)) <-> (if Z.odd m then (X ?= Y) = Lt else (X ?= Y) <> Gt)).
  { intros X Y. rewrite <- Z.negb_odd. destruct (Z.compare_spec X Y); destruct (Z.odd m); cbn [negb]; split; intros H'; try congruence; try lia; right; split; intros; lia || congruence. }
  assert (T2 : forall p q, (if Z.odd m then (p < q)%Q else (p <= q)%Q) <-> (if Z.odd m then (p ?= q)%Q = Lt else (p ?= q)%Q <> Gt)) by (intros p q; destruct (Z.odd m); [apply Qlt_alt|apply Qle_alt]).
  rewrite T, T2. clear T T2. destruct ((m =? 2 ^ 52) && (-1074 <? k)) eqn:B.
  - pose proof (scale_compare (4 * m - 1) 4 (pow2 k) a b (ulp k) C1074 (pow2_units k K) C_pos) as SC. rewrite SC. apply andb_true_iff in B. destruct B as (_ & B). apply Z.ltb_lt in B. pose proof (ulp_S (k - 1) ltac:(lia)) as U. replace (k - 1 + 1) with k in U by lia. rewrite U.
    replace ((4 * m - 1) * (2 * ulp (k - 1)) * Z.pos b) with (2 * ((2 * (m * (2 * ulp (k - 1))) - ulp (k - 1)) * Z.pos b)) by ring. replace (4 * a * C1074) with (2 * (2 * (a * C1074))) by ring. rewrite <- !Zmult_compare_compat_l by lia. reflexivity.
  - pose proof (scale_compare (2 * m - 1) 2 (pow2 k) a b (ulp k) C1074 (pow2_units k K) C_pos) as SC. rewrite SC. replace (2 * (m * ulp k) - ulp k) with ((2 * m - 1) * ulp k) by ring. rewrite (Z.mul_assoc 2 a). reflexivity.
Qed.
Lemma lower_pos m k : 0 < m -> (0 < lower_end m k)%Q.
Proof. intros. unfold lower_end. pose proof (pow2_pos_q k). destruct (_ && _); apply Qmult_lt_0_compat; auto; unfold Qlt; cbn [Qnum Qden]; lia. Qed.
Lemma rounding_iff m k q : finite_double m k -> 0 < m -> (nearest_flonum q (false, Fin m k) <-> rounding m k q).
Proof.
  intros (Hd & K) Hm. destruct q as [a b]. unfold nearest_flonum. cbn [fst snd Qnum Qden]. fold C1074.
  assert (R : rounding m k (a # b) <-> upper_ok (a * C1074) (Z.pos b) m k /\ lower_ok (a * C1074) (Z.pos b) m k).
  { rewrite upper_iff, lower_iff by auto. unfold rounding. destruct (Z.odd m); unfold opened, closed; tauto. }
  rewrite R. split.
  - intros (Sg & m' & k' & N & E). destruct (971 <? k'); [discriminate|]. injection E as -> ->. assert (0 <= a). { destruct (Z.lt_ge_cases a 0) as [L|L]; [|lia]. assert ((a # b < 0)%Q) by (unfold Qlt; cbn [Qnum Qden]; lia). apply Sg in H. discriminate. }
    rewrite Z.abs_eq in N by lia. split; [now apply nearest_upper|now apply nearest_lower].
  - intros (U & L). assert (P : (0 < a # b)%Q). { apply Qlt_le_trans with (lower_end m k); [now apply lower_pos|]. apply lower_iff in L; auto. destruct (Z.odd m); auto. now apply Qlt_le_weak. }
    split. { split; [discriminate|]. intros L'. exfalso. apply (Qlt_irrefl 0). now apply Qlt_trans with (a # b). }
    exists m, k. assert (0 < a) by (unfold Qlt in P; cbn [Qnum Qden] in P; lia). rewrite Z.abs_eq by lia. split; [|rewrite (proj2 (Z.ltb_ge _ _)) by lia; reflexivity].
    pose proof C_pos. apply nearest_local; auto; nia.
Qed.
(** ** The intervals of find-rational *)
Definition code_lower (m k : Z) : Q := if m =? 2 ^ 52 then ((4 * m - 1) # 4) * pow2 k else ((2 * m - 1) # 2) * pow2 k.
Lemma Qhalf_num m : (inject_Z m + (1 # 2) == (2 * m + 1) # 2)%Q. Proof. unfold Qeq, Qplus, inject_Z. cbn [Qnum Qden]. lia. Qed.
Lemma odd_coprime n e : 0 <= e -> Z.odd n = true -> Z.gcd n (2 ^ e) = 1.
Proof. intros He H. apply Zgcd_1_rel_prime. destruct (Z.eq_dec e 0) as [->|E]; [apply Zgcd_1_rel_prime; apply Z.gcd_1_r|]. apply Zpow_facts.rel_prime_Zpower_r; [lia|]. apply Zgcd_1_rel_prime. apply Z.odd_spec in H. destruct H as (j & ->). rewrite Z.gcd_comm, Z.add_comm, Z.gcd_comm. rewrite (Z.gcd_comm _ 2). rewrite Z.mul_comm, Z.gcd_add_mult_diag_r. reflexivity. Qed.
Lemma end_red n k q : Z.odd n = true -> (q == (n # 2) * pow2 k)%Q -> exists t, Qred q = (n * Z.pos t) # Z.to_pos (2 ^ Z.max 0 (1 - k)) /\ Z.pos t = 2 ^ Z.max 0 (k - 1).
Proof.
  intros On E. pose proof (Z.pow_pos_nonneg 2 (Z.max 0 (k - 1)) ltac:(lia) ltac:(lia)) as PT. destruct (2 ^ Z.max 0 (k - 1)) as [|t|t] eqn:ET; try lia. exists t. split; auto. apply Qred_pair.
  - rewrite E. unfold pow2. destruct (Z.leb_spec 0 k) as [L|L].
    + unfold Qeq, Qmult, inject_Z. cbn [Qnum Qden]. rewrite !Pos2Z.inj_mul. destruct (Z.eq_dec k 0) as [->|K].
      * cbn in ET. injection ET as <-. reflexivity.
      * rewrite Z.max_l in * by lia. rewrite Z.max_r in ET by lia. rewrite <- ET. replace k with (Z.succ (k - 1)) at 1 by lia. rewrite Z.pow_succ_r by lia. change (Z.pos (Z.to_pos (2 ^ 0))) with 1. ring.
    + rewrite (Z.max_l 0 (k - 1)) in ET by lia. injection ET as <-. rewrite Z.max_r by lia. unfold Qeq, Qmult. cbn [Qnum Qden]. rewrite Pos2Z.inj_mul, !Z2Pos.id by (apply Z.pow_pos_nonneg; lia). replace (1 - k) with (Z.succ (- k)) by lia. rewrite Z.pow_succ_r by lia. ring.
  - apply Z.pow_pos_nonneg; lia.
  - destruct (Z.le_gt_cases 1 k) as [L|L]; [rewrite (Z.max_l 0 (1 - k)) by lia; apply Z.gcd_1_r|]. rewrite (Z.max_l 0 (k - 1)) in ET by lia. injection ET as <-. rewrite Z.mul_1_r. apply odd_coprime; [lia|exact On].
Qed.
Lemma ends_apart m k p q : Z.odd m = true -> (p == ((2 * m + 1) # 2) * pow2 k)%Q -> (q == ((2 * m - 1) # 2) * pow2 k)%Q ->
  apart (Qnum (Qred p)) (Z.pos (Qden (Qred p))) (Qnum (Qred q)) (Z.pos (Qden (Qred q))).
Proof.
  intros Om Ep Eq. destruct (end_red (2 * m + 1) k p) as (t & -> & Et); auto. { rewrite Z.odd_add, Z.odd_mul. reflexivity. }
  destruct (end_red (2 * m - 1) k q) as (t' & -> & Et'); auto. { rewrite Z.odd_sub, Z.odd_mul. reflexivity. }
  assert (t = t') by congruence. subst t'. cbn [Qnum Qden]. rewrite !Z2Pos.id by (apply Z.pow_pos_nonneg; lia). set (D := 2 ^ Z.max 0 (1 - k)). assert (0 < D) by (apply Z.pow_pos_nonneg; lia). clearbody D. unfold apart. replace ((2 * m + 1) * Z.pos t * D - (2 * m - 1) * Z.pos t * D) with (2 * Z.pos t * D) by ring. rewrite Z.abs_eq by nia. split; nia.
Qed.
Lemma ensure_exact_value m k : (ensure_exact m k == inject_Z m * pow2 k)%Q. Proof. apply Qred_correct. Qed.
Lemma code_ends m k : let dm := if m =? 2 ^ 52 then pow2 (k - 2) else pow2 (k - 1) in
  (ensure_exact m k + pow2 (k - 1) == upper_end m k)%Q /\ (ensure_exact m k - dm == code_lower m k)%Q.
Proof.
  assert (M : (inject_Z m == m # 1)%Q) by reflexivity. assert (A1 : ((2 * m + 1) # 2 == (m # 1) + (1 # 2))%Q) by (unfold Qeq, Qplus; cbn [Qnum Qden]; lia). assert (A2 : ((2 * m - 1) # 2 == (m # 1) - (1 # 2))%Q) by (unfold Qeq, Qminus, Qopp, Qplus; cbn [Qnum Qden]; lia). assert (A3 : ((4 * m - 1) # 4 == (m # 1) - (1 # 4))%Q) by (unfold Qeq, Qminus, Qopp, Qplus; cbn [Qnum Qden]; lia).
  cbv zeta. unfold upper_end, code_lower. rewrite ensure_exact_value, M. pose proof (pow2_half k) as H1. pose proof (pow2_half (k - 1)) as H2. replace (k - 1 - 1) with (k - 2) in H2 by lia. split.
  - rewrite H1, A1. ring.
  - destruct (m =? 2 ^ 52); [rewrite H2, H1, A3; ring|rewrite H1, A2; ring].
Qed.
