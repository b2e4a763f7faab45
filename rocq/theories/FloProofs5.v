(** The digits print_double generates: shortest and closest *)
From Coq Require Import ZArith List Bool Lia.
From Verif Require Import Outcome FloModel FloSpec FloProofs FloProofs2 FloProofs3 FloProofs4.
Import ListNotations.
Local Open Scope Z_scope.
Ltac Zify.zify_post_hook ::= idtac.

Notation dn K := (dec_num 1 K). Notation dd K := (dec_den K).
Lemma max_split a : Z.max a 0 = a + Z.max (- a) 0. Proof. lia. Qed.
Lemma dec_shift P K n : 0 <= n -> dec_num P (K - n) * dd K * 10 ^ n = P * dn K * dd (K - n).
Proof.
  intros Hn. unfold dec_num, dec_den. transitivity (P * 2 ^ 1074 * 10 ^ (Z.max (K - n) 0 + Z.max (- K) 0 + n)); [rewrite !Z.pow_add_r by lia; ring|].
  replace (Z.max (K - n) 0 + Z.max (- K) 0 + n) with (Z.max K 0 + Z.max (- (K - n)) 0) by lia. rewrite Z.pow_add_r by lia. ring.
Qed.
Lemma dd_pos K : 0 < dd K. Proof. apply dec_den_pos. Qed.
Lemma dn_pos K : 0 < dn K. Proof. apply dec_num_pos. lia. Qed.
Lemma dn_lin P K : dec_num P K = P * dn K. Proof. unfold dec_num. ring. Qed.
Lemma dec_S K : dn (K + 1) * dd K = 10 * dn K * dd (K + 1).
Proof. pose proof (dec_shift 1 (K + 1) 1 ltac:(lia)) as H. replace (K + 1 - 1) with K in H by ring. change (10 ^ 1) with 10 in H. lia. Qed.
Lemma sign_le X Y c d : 0 < c -> 0 < d -> X * c = Y * d -> (0 <= X <-> 0 <= Y) /\ (0 < X <-> 0 < Y). Proof. intros. split; split; nia. Qed.

Section Scale.
Context (m k K r s mm mp : Z).
Notation V := (units m k).
Context (Hd : is_double m k) (Hm : 0 < m) (Hs : 0 < s) (Hr : 0 < r) (Hmm : 0 < mm).
Context (EA : r * dn K = V * dd K * s) (EB : 2 * mp * dn K = ulp k * dd K * s) (EC : 2 * mm * dn K = gap_below m k * dd K * s).
Lemma inside_iff P n : 0 <= n -> inside (Z.even m) r s mm mp P n <-> upper_ok (dec_num P (K - n)) (dd (K - n)) m k /\ lower_ok (dec_num P (K - n)) (dd (K - n)) m k.
Proof.
  intros Hn. pose proof (dec_shift P K n Hn) as Sh. pose proof (dn_pos K) as P1. pose proof (dd_pos K) as P2. pose proof (dd_pos (K - n)) as P3. pose proof (pow10_pos n Hn) as P4. unfold inside, upper_ok, lower_ok. set (N := dec_num P (K - n)) in *. set (D := dd (K - n)) in *. set (t := 10 ^ n) in *. set (W := ulp k) in *. set (g := gap_below m k) in *. set (A := dn K) in *. set (B := dd K) in *. set (U := V) in *.
  assert (X1 : ((r + mp) * t - P * s) * (2 * A * D) = ((2 * U + W) * D - 2 * N) * (B * s * t)).
  { transitivity ((2 * (r * A) + 2 * mp * A) * t * D - 2 * s * (P * A * D)); [ring|]. rewrite EA, EB, <- Sh. ring. }
  assert (X2 : (P * s - (r - mm) * t) * (2 * A * D) = (2 * N - (2 * U - g) * D) * (B * s * t)).
  { transitivity (2 * s * (P * A * D) - (2 * (r * A) - 2 * mm * A) * t * D); [ring|]. rewrite EA, EC, <- Sh. ring. }
  assert (C1 : 0 < 2 * A * D) by nia. assert (C2 : 0 < B * s * t). { assert (0 < B * s) by nia. nia. }
  destruct (sign_le _ _ _ _ C1 C2 X1) as (S1 & S2). destruct (sign_le _ _ _ _ C1 C2 X2) as (S3 & S4). clear X1 X2 Sh EA EB EC. unfold le_if. destruct (Z.even m).
  - split; [intros (I1 & I2); split; [split; [lia|auto]|right; split; [lia|auto]]|]. intros ((I1 & _) & [I2|(I2 & _)]); [lia|]. lia.
  - split; [intros (I1 & I2); split; [split; [lia|intros; exfalso; lia]|right; split; [lia|intros; exfalso; lia]]|]. intros ((I1 & J1) & [I2|(I2 & J2)]); [lia|]. destruct (Z.eq_dec (2 * N) ((2 * U + W) * D)) as [Q|Q]; [now specialize (J1 Q)|]. destruct (Z.eq_dec (2 * N) ((2 * U - g) * D)) as [Q2|Q2]; [symmetry in Q2; now specialize (J2 Q2)|]. lia.
Qed.
Lemma inside_reads P n : 0 <= P -> 0 <= n -> inside (Z.even m) r s mm mp P n <-> reads_as P (K - n) m k.
Proof.
  intros HP Hn. rewrite inside_iff by auto. pose proof (dd_pos (K - n)) as P3. split.
  - intros (I1 & I2). apply nearest_local; auto. rewrite dn_lin. pose proof (dn_pos (K - n)). nia.
  - intros H. split; [now apply nearest_upper|now apply nearest_lower].
Qed.
Lemma dist_scale P n : 0 <= n -> Z.abs (P * s - r * 10 ^ n) * (dn K * dd (K - n)) = dec_dist P (K - n) m k * (dd K * s * 10 ^ n).
Proof.
  intros Hn. pose proof (dec_shift P K n Hn) as Sh. pose proof (dn_pos K) as P1. pose proof (dd_pos K) as P2. pose proof (dd_pos (K - n)) as P3. pose proof (pow10_pos n Hn) as P4. unfold dec_dist.
  rewrite <- (Z.abs_eq (dn K * dd (K - n))) by nia. rewrite <- (Z.abs_eq (dd K * s * 10 ^ n)) by (assert (0 < dd K * s) by nia; nia). rewrite <- !Z.abs_mul. f_equal.
  transitivity (s * (P * dn K * dd (K - n)) - (r * dn K) * (10 ^ n * dd (K - n))); [ring|]. rewrite EA, <- Sh. ring.
Qed.
Context (Hu : ulp k <= V).
(** [P] of n digits is what a shortest printer must give *)
Definition best (P n : Z) : Prop :=
  10 ^ (n - 1) <= P < 10 ^ n /\ n <= 17 /\ reads_as P (K - n) m k /\
  (forall P', reads_as P' (K - n) m k -> dec_dist P (K - n) m k <= dec_dist P' (K - n) m k) /\
  (forall P' e', 0 < P' < 10 ^ (n - 1) -> ~ reads_as P' e' m k).
Lemma reads_pow P e j : 0 <= j -> reads_as (P * 10 ^ j) e m k <-> reads_as P (e + j) m k.
Proof.
  intros Hj. unfold reads_as. pose proof (dec_shift P (e + j) j Hj) as Sh. replace (e + j - j) with e in Sh by ring. rewrite (dn_lin P), (dn_lin (P * 10 ^ j)) in *.
  rewrite <- (nearest_scale (dd (e + j)) (P * 10 ^ j * dn e)) by apply dd_pos. rewrite <- (nearest_scale (dd e) (P * dn (e + j))) by apply dd_pos.
  replace (dd (e + j) * (P * 10 ^ j * dn e)) with (dd e * (P * dn (e + j))) by lia. rewrite (Z.mul_comm (dd (e + j))). reflexivity.
Qed.
Lemma run_best ds : outside (Z.even m) r s mm mp -> le_if (Z.even m) s ((r + mp) * 10) -> run_ok (Z.even m) r s mm mp ds -> best (dval ds 0) (len ds).
Proof.
  intros Ho Hfi (R1 & R2 & R3 & R4 & R5 & R6 & R7). pose proof (dval_range ds R2) as Rg. specialize (R6 Hfi). specialize (R7 Hfi). set (P := dval ds 0) in *. set (n := len ds) in *.
  assert (Hn : 1 <= n). { unfold n. destruct ds; [contradiction|]. rewrite len_cons. pose proof (len_nonneg ds). lia. }
  pose proof (dn_pos K) as P1. pose proof (dd_pos K) as P2.
  unfold best. split; [lia|]. split; [|split; [|split]].
  - (* an interval of length over s holds a multiple of s *)
    apply Z.le_ngt. intros L.
    assert (Big : s < (mm + mp) * 10 ^ 17).
    { assert (G : 2 * s < 2 * ((mm + mp) * 10 ^ 17)); [|lia]. apply (Z.mul_lt_mono_pos_r (dn K)); auto.
      replace (2 * ((mm + mp) * 10 ^ 17) * dn K) with ((2 * mm * dn K + 2 * mp * dn K) * 10 ^ 17) by ring. rewrite EB, EC.
      assert (F : 2 * s * dn K <= (2 * V + ulp k) * 10 * dd K * s). { assert (s <= (r + mp) * 10) by (unfold le_if in Hfi; destruct (Z.even m); lia). replace ((2 * V + ulp k) * 10 * dd K * s) with ((2 * (V * dd K * s) + ulp k * dd K * s) * 10) by ring. rewrite <- EA, <- EB. nia. }
      assert (Gp : (2 * V + ulp k) * 10 < (gap_below m k + ulp k) * 10 ^ 17).
      { destruct Hd as (A1 & A2 & A3). pose proof (ulp_pos k A1) as Pu. rewrite units_ulp. change (10 ^ 17) with 100000000000000000. unfold gap_below. rewrite p53_val, p52_val in *. destruct (Z.eqb_spec m 4503599627370496) as [->|Ne]; cbn [andb].
        - destruct (Z.ltb_spec (-1074) k) as [Lk|Lk]; [|lia]. pose proof (ulp_S (k - 1) ltac:(lia)) as Us. replace (k - 1 + 1) with k in Us by ring. pose proof (ulp_pos (k - 1) ltac:(lia)). lia.
        - nia. }
      assert (0 < dd K * s) by nia. nia. }
    set (x := (r - mm) * 10 ^ 17) in *. apply (R5 17 (x / s + 1)); [lia|]. unfold inside. fold x. pose proof (Z.div_mod x s ltac:(lia)) as E. pose proof (Z.mod_pos_bound x s Hs) as B. set (q := x / s) in *.
    replace ((r + mp) * 10 ^ 17) with (x + (mm + mp) * 10 ^ 17) by (unfold x; ring). unfold le_if. destruct (Z.even m); lia.
  - apply inside_reads; auto; lia.
  - intros P' H. pose proof (dist_scale P n ltac:(lia)) as D1. pose proof (dist_scale P' n ltac:(lia)) as D2.
    assert (I : inside (Z.even m) r s mm mp P' n). { apply inside_iff; [lia|]. split; [now apply nearest_upper; [apply dd_pos|]|now apply nearest_lower; [apply dd_pos|]]. }
    specialize (R4 _ I). pose proof (dd_pos (K - n)). pose proof (pow10_pos n ltac:(lia)). assert (0 < dd K * s * 10 ^ n) by (assert (0 < dd K * s) by nia; nia). assert (0 < dn K * dd (K - n)) by nia.
    apply (Z.mul_le_mono_pos_r _ _ (dd K * s * 10 ^ n)); auto. rewrite <- D1, <- D2. nia.
  - intros P' e' HP' H. destruct (Z.le_gt_cases (K - n + 1) e') as [L|L].
    + replace e' with (K - (n - 1) + (e' - (K - n + 1))) in H by ring. rewrite <- reads_pow in H by lia. apply (R5 (n - 1) (P' * 10 ^ (e' - (K - n + 1)))); [lia|]. apply inside_reads; auto; [|lia]. pose proof (pow10_pos (e' - (K - n + 1)) ltac:(lia)). nia.
    + destruct (Z.eq_dec n 1) as [->|Nn]; [change (10 ^ (1 - 1)) with 1 in HP'; lia|]. specialize (R7 ltac:(lia)).
      replace e' with (K - (K - e')) in H by ring. apply inside_reads in H; [|lia|lia]. destruct H as (H & _). set (n' := K - e') in *. replace n' with (1 + (n' - 1)) in H by ring. rewrite Z.pow_add_r, Z.pow_1_r in H by (unfold n'; lia).
      assert (10 ^ (n - 1) <= 10 ^ (n' - 1)) by (apply Z.pow_le_mono_r; unfold n'; lia). set (t := 10 ^ (n' - 1)) in *. assert (0 < t) by (apply pow10_pos; unfold n'; lia).
      assert (s <= (r - mm) * 10) by (unfold le_if in R7; destruct (negb (Z.even m)); lia). assert (P' * s < t * s) by nia. assert ((r - mm) * 10 * t <= P' * s) by (unfold le_if in H; destruct (Z.even m); lia). nia.
Qed.
End Scale.
