(** Proofs about RzModel2: exact of a flonum and back *)
From Coq Require Import ZArith Znumtheory QArith Qabs List Bool Lia Qcanon Lqa.
From Verif Require Import Outcome BignumModel IntModel IntSpec RatModel RatSpec FloModel FloSpec FloProofs InexModel InexSpec InexProofs InexProps CmpModel CmpSpec FloProofs3 CmpProofs CmpProofs4 RzModel RzModel2 RzSpec RzSpec2 RzProofs RzProofs2 RzProofs3 RzProofs4.
Import ListNotations.
Local Open Scope Z_scope.
Ltac Zify.zify_post_hook ::= idtac.

Lemma nearest_flonum_unique q r r' : nearest_flonum q r -> nearest_flonum q r' -> r = r'.
Proof.
  intros (S1 & m & k & N & E) (S2 & m' & k' & N' & E'). destruct (nearest_unique _ _ _ _ _ _ (Pos2Z.is_pos (Qden q)) N N') as (-> & ->). destruct r as [b f], r' as [b' f']. cbn [fst snd] in *. rewrite E, E'. f_equal.
  destruct b, b'; auto; [symmetry|]; tauto.
Qed.
Lemma rounding_abs q neg m k : finite_double m k -> 0 < m -> nearest_flonum q (neg, Fin m k) -> rounding m k (Qabs q).
Proof.
  intros Hd Hm N. destruct neg.
  - pose proof N as ((S1 & _) & _). cbn [fst] in S1. rewrite nearest_sign in N by auto. rewrite rounding_iff in N by auto. apply (rounding_Qeq m k (- q)%Q); auto. symmetry. apply Qabs_neg. apply Qlt_le_weak. now apply S1.
  - apply rounding_iff in N; auto. apply (rounding_Qeq m k q); auto. symmetry. apply Qabs_pos. apply Qlt_le_weak. apply Qlt_le_trans with (lower_end m k); [now apply lower_pos|]. unfold rounding in N. destruct (Z.odd m); destruct N as (N & _); auto. now apply Qlt_le_weak.
Qed.
Lemma rounding_lower m k q : rounding m k q -> (lower_end m k <= q)%Q.
Proof. unfold rounding. destruct (Z.odd m); intros (A & _); auto. now apply Qlt_le_weak. Qed.
(** m/2^-k itself is rounded to m * 2^k *)
Definition sgn_of (neg : bool) (z : Z) : Z := if neg then - z else z.
Lemma self_in neg m k : finite_double m k -> 0 < m -> k < 0 -> nearest_flonum (sgn_of neg m # Z.to_pos (2 ^ (- k))) (neg, Fin m k).
Proof.
  intros Hd Hm Hk. assert (A : nearest_flonum (m # Z.to_pos (2 ^ (- k))) (false, Fin m k)).
  { apply rounding_iff; auto. assert (E : (m # Z.to_pos (2 ^ - k) == inject_Z m * pow2 k)%Q). { unfold pow2. rewrite (proj2 (Z.leb_gt 0 k)) by lia. unfold Qeq, Qmult, inject_Z. cbn [Qnum Qden]. rewrite Pos2Z.inj_mul. ring. }
    apply (rounding_Qeq m k (inject_Z m * pow2 k)); [now symmetry|]. pose proof (pow2_pos_q k) as P. unfold rounding, opened, closed, lower_end, upper_end.
    assert (L4 : ((4 * m - 1 # 4) * pow2 k < inject_Z m * pow2 k)%Q) by (apply Qmult_lt_compat_r; auto; unfold Qlt, inject_Z; cbn [Qnum Qden]; lia). assert (L2 : ((2 * m - 1 # 2) * pow2 k < inject_Z m * pow2 k)%Q) by (apply Qmult_lt_compat_r; auto; unfold Qlt, inject_Z; cbn [Qnum Qden]; lia). assert (U2 : (inject_Z m * pow2 k < (2 * m + 1 # 2) * pow2 k)%Q) by (apply Qmult_lt_compat_r; auto; unfold Qlt, inject_Z; cbn [Qnum Qden]; lia).
    destruct (Z.odd m), ((m =? 2 ^ 52) && (-1074 <? k)); split; auto; now apply Qlt_le_weak. }
  destruct neg; cbn [sgn_of]; auto. apply nearest_sign; auto. change (- (- m # Z.to_pos (2 ^ - k)))%Q with (- - m # Z.to_pos (2 ^ - k)). now rewrite Z.opp_involutive.
Qed.
Lemma rat_object_ok q : Qred q = q -> Z.abs (Qnum q) < 2 ^ 1088 -> Z.pos (Qden q) < 2 ^ 1088 -> wf (rat_object q) /\ moderate (rat_object q) /\ rat_of (rat_object q) = q.
Proof.
  intros R Hn Hd. destruct (int_object_ok (Qnum q) Hn) as (C1 & I1). destruct (int_object_ok (Z.pos (Qden q)) ltac:(lia)) as (C2 & I2).
  assert (W : forall z, Z.abs z < 2 ^ 1088 -> nwords (int_object z) <= 2 ^ 26). { intros z _. unfold int_object. destruct (_ && _); [discriminate|]. cbn [nwords]. apply Z.le_trans with 17; [|discriminate]. cbn [words]. assert (L : forall f y, (length (words_of f y) <= f)%nat) by (induction f as [|f IH]; intros y; cbn [words_of length]; [lia|]; destruct (y =? 0); cbn [length]; [lia|specialize (IH (y / 2 ^ 64)); lia]). pose proof (L 17%nat (Z.abs z)). lia. }
  unfold rat_object. destruct (Pos.eqb_spec (Qden q) 1) as [E|E].
  - cbn [wf moderate rat_of]. rewrite I1. split; auto. split; [now apply W|]. destruct q as [a b]. cbn [Qnum Qden] in *. now subst b.
  - cbn [wf moderate rat_of]. rewrite I1, I2. split; [|split; [split; apply W; lia|destruct q; reflexivity]]. split; auto. split; auto. split; [lia|]. now apply Qred_iff.
Qed.
Lemma integral_value neg m k : finite_double m k -> units m k mod C1074 = 0 -> exists z, flonum_exact neg m k = EInt (int_object (sgn_of neg z)) /\ units m k = z * C1074 /\ 0 <= z < 2 ^ 1088.
Proof.
  intros Hd M. pose proof C_pos as P. pose proof (units_nonneg m k (proj1 Hd)) as U0. exists (units m k / C1074). split; [|split].
  - unfold flonum_exact, exact_of. change (sv m k) with (units m k). fold C1074. rewrite M. cbn [Z.eqb]. unfold sgn_of. destruct neg; do 2 f_equal; lia.
  - rewrite (Z.div_mod (units m k) C1074) at 1 by lia. rewrite M. ring.
  - split; [apply Z.div_pos; lia|]. destruct Hd as ((A & B & _) & K). apply Z.div_lt_upper_bound; auto. unfold units, C1074. apply Z.lt_le_trans with (2 ^ 53 * 2 ^ (k + 1074)). { apply Z.mul_lt_mono_pos_r; [apply Z.pow_pos_nonneg; lia|lia]. } rewrite <- !Z.pow_add_r by lia. apply Z.pow_le_mono_r; lia.
Qed.
Lemma integral_nearest neg z m k : finite_double m k -> 0 < m -> units m k = z * C1074 -> nearest_flonum (inject_Z (sgn_of neg z)) (neg, Fin m k).
Proof.
  intros (Hd & K) Hm E. pose proof C_pos as P. assert (0 < units m k). { unfold units. pose proof (Z.pow_pos_nonneg 2 (k + 1074) ltac:(lia) ltac:(destruct Hd; lia)). nia. } assert (0 < z) by nia. split.
  - cbn [fst]. unfold Qlt, inject_Z, sgn_of. cbn [Qnum Qden]. destruct neg; split; intros; try discriminate; try lia; reflexivity.
  - exists m, k. cbn [snd Qnum Qden inject_Z]. rewrite (proj2 (Z.ltb_ge _ _) K). split; auto. fold C1074. replace (Z.abs (sgn_of neg z) * C1074) with (units m k) by (unfold sgn_of; destruct neg; rewrite ?Z.abs_opp, Z.abs_eq by lia; exact E). now apply nearest_exact.
Qed.
Lemma nonintegral_neg m k : finite_double m k -> units m k mod C1074 <> 0 -> k < 0.
Proof. intros ((A & _) & _) M. apply Z.lt_nge. intros L. apply M. unfold units. rewrite Z.pow_add_r by lia. rewrite Z.mul_assoc. apply Z.mod_mul. pose proof C_pos. unfold C1074 in *. lia. Qed.
Lemma nonintegral_value neg m k : finite_double m k -> 0 < m -> units m k mod C1074 <> 0 -> exists r, flonum_exact neg m k = rat_object r /\ simplest (fun q => nearest_flonum q (neg, Fin m k)) r /\ Z.abs (Qnum r) < 2 ^ 1088 /\ Z.pos (Qden r) < 2 ^ 1088.
Proof.
  intros Hd Hm M. pose proof (nonintegral_neg m k Hd M) as Kn. destruct (flonum_simplest neg m k Hd Hm) as (r & E & S1). exists r. split. { unfold flonum_exact, exact_of. change (sv m k) with (units m k). fold C1074. rewrite (proj2 (Z.eqb_neq _ _) M). unfold r2r_object. now rewrite E. }
  split; auto. destruct S1 as (_ & _ & S1). destruct (S1 _ _ (self_in neg m k Hd Hm Kn)) as (A1 & A2). rewrite Z2Pos.id in A2 by (apply Z.pow_pos_nonneg; lia). destruct Hd as ((B1 & B2 & _) & _). split.
  - apply Z.lt_trans with (2 ^ 53); [|apply Z.pow_lt_mono_r; lia]. unfold sgn_of in A1. destruct neg; lia.
  - apply Z.le_lt_trans with (2 ^ - k); auto. apply Z.pow_lt_mono_r; lia.
Qed.
(** exact of a flonum is a number that is rounded back to it *)
Lemma exact_nearest neg m k : finite_double m k -> 0 < m -> wf (flonum_exact neg m k) /\ moderate (flonum_exact neg m k) /\ nearest_flonum (rat_of (flonum_exact neg m k)) (neg, Fin m k).
Proof.
  intros Hd Hm. destruct (Z.eq_dec (units m k mod C1074) 0) as [M|M].
  - destruct (integral_value neg m k Hd M) as (z & -> & E & B). assert (AB : Z.abs (sgn_of neg z) < 2 ^ 1088) by (unfold sgn_of; destruct neg; lia). destruct (int_object_ok _ AB) as (C1 & I1). split; [exact C1|]. split; [|cbn [rat_of]; rewrite I1; now apply integral_nearest].
    destruct (rat_object_ok (inject_Z (sgn_of neg z))) as (_ & W & _); auto. apply Qred_iff; apply Z.gcd_1_r.
  - destruct (nonintegral_value neg m k Hd Hm M) as (r & -> & (S1 & S2 & _) & B1 & B2). destruct (rat_object_ok r S2 B1 B2) as (W & M1 & ->). auto.
Qed.
