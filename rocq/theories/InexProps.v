(** * C46: converting exact numbers to flonums *)
From Coq Require Import ZArith Znumtheory Zpow_facts QArith Qabs List Bool Lia.
From Verif Require Import Outcome BignumModel IntModel IntSpec IntProofs RatModel RatSpec RatProofs FloModel FloSpec FloProofs InexModel InexSpec InexProofs.
Import ListNotations.
Local Open Scope Z_scope.
Ltac Zify.zify_post_hook ::= idtac.

(** inexact of an exact integer of any size is the nearest flonum *)
Lemma int_nearest n : canonical n -> exists s, get_double (EInt n) = (int_of n <? 0, s) /\ s = rnd (Z.abs (int_of n) * 2 ^ 1074) 1.
Proof.
  intros C. destruct n as [v|b].
  - eexists. split; reflexivity.
  - destruct C as (S1 & F & L & R). cbn [get_double]. exists (bignum_to_double (Z.abs (int_of (Bn b)))). unfold in_fixnum_range in R.
    assert (A : 2 ^ 54 <= Z.abs (int_of (Bn b))). { change (2 ^ 54) with 18014398509481984. change (2 ^ 61) with 2305843009213693952 in R. lia. }
    assert (0 <= value (words b)). { clear - F. induction F as [|w t Hw _ IH]; cbn [value]; [lia|]. unfold is_word in Hw. nia. }
    split; [|rewrite bignum_to_double_ok by exact A; reflexivity]. f_equal. cbn [int_of] in *. apply eq_true_iff_eq. rewrite !Z.ltb_lt. assert (2 ^ 54 = 18014398509481984) by reflexivity. destruct S1 as [E|E]; rewrite E in *; lia.
Qed.
Theorem inexact_integer n : wf (EInt n) -> nearest_flonum (rat_of (EInt n)) (get_double (EInt n)).
Proof.
  intros C. destruct (int_nearest n C) as (s & E & ->). rewrite E. split.
  - cbn [fst rat_of]. rewrite Z.ltb_lt. unfold Qlt. cbn [Qnum Qden inject_Z]. lia.
  - cbn [snd rat_of Qnum Qden inject_Z]. apply rnd_nearest; [lia|]. assert (0 < 2 ^ 1074) by (apply Z.pow_pos_nonneg; lia). set (c := 2 ^ 1074) in *. clearbody c. nia.
Qed.
(** So is inexact of a ratnum whose magnitude is at least 2^-1022, the least normal double.
    Missing: smaller ratnums, see [inexact_subnormal_refuted]. *)
Theorem inexact_rational_partial x : wf x -> (1 # Pos.pow 2 1022 <= Qabs (rat_of x))%Q -> nearest_flonum (rat_of x) (get_double x).
Proof.
  intros W M. destruct x as [n|n d]; [now apply inexact_integer|]. destruct W as (Cn & Cd & D1 & G). unfold nearest_flonum. cbn [rat_of get_double fst snd Qnum Qden] in *. split.
  - rewrite Z.ltb_lt. unfold Qlt. cbn [Qnum Qden]. lia.
  - rewrite Z2Pos.id by lia. unfold Qabs, Qle in M. cbn [Qnum Qden] in M. rewrite Z2Pos.id in M by lia. rewrite Pos2Z.inj_pow in M.
    assert (0 < 2 ^ 1022) by (apply Z.pow_pos_nonneg; lia). assert (0 < 2 ^ 1074) by (apply Z.pow_pos_nonneg; lia).
    assert (0 < Z.abs (int_of n)). { set (c := 2 ^ 1022) in *. clearbody c. nia. }
    rewrite rat_to_double_ok; [apply rnd_nearest; [lia|set (c := 2 ^ 1074) in *; clearbody c; nia]|assumption|lia|set (c := 2 ^ 1022) in *; clearbody c; lia].
Qed.
(** the converse of overflow: a result is infinite only for magnitudes at least
    2^1024 - 2^970, half-way beyond the greatest flonum *)
Lemma infinite_arith u N D c e t : 0 <= N -> 0 < D -> 0 < c -> 0 < t -> e * c = t -> 4503599627370496 * (4 * t) <= u ->
  (9007199254740991 * (2 * t) <> u -> Z.abs (u * D - N * c) <= Z.abs (9007199254740991 * (2 * t) * D - N * c)) ->
  18014398509481983 * e * D <= N.
Proof.
  intros HN HD Hc Ht E G F. specialize (F ltac:(lia)). assert (GD : 18014398509481984 * t * D <= u * D) by (apply Z.mul_le_mono_nonneg_r; lia).
  assert (X : 18014398509481983 * t * D <= N * c) by lia. rewrite <- E in X. apply (Z.mul_le_mono_pos_r _ _ c); auto. lia.
Qed.
Lemma pow_pos n : 0 <= n -> 0 < 2 ^ n.
Proof. intros. now apply Z.pow_pos_nonneg. Qed.
Lemma pow_split a b c : c = a + b -> 0 <= a -> 0 <= b -> 2 ^ c = 2 ^ a * 2 ^ b.
Proof. intros ->. now apply Z.pow_add_r. Qed.
Theorem inexact_infinite q r : nearest_flonum q r -> snd r = Inf -> ((2 ^ 54 - 1) * 2 ^ 970 * Z.pos (Qden q) <= Z.abs (Qnum q)).
Proof.
  intros (_ & m & k & ((A & B & C) & F) & E) I. rewrite I in E. destruct (Z.ltb_spec 971 k) as [L|L]; [|discriminate].
  assert (Dm : is_double (2 ^ 53 - 1) 971) by (unfold is_double; change (2 ^ 53) with 9007199254740992; change (2 ^ 52) with 4503599627370496; lia).
  assert (Mm : 2 ^ 52 <= m) by lia. specialize (F _ _ Dm). unfold units in F.
  apply (infinite_arith (m * 2 ^ (k + 1074)) _ _ (2 ^ 1074) (2 ^ 970) (2 ^ 2044)).
  - apply Z.abs_nonneg.
  - reflexivity.
  - apply pow_pos; discriminate.
  - apply pow_pos; discriminate.
  - symmetry. apply pow_split; reflexivity || discriminate.
  - change (4 * 2 ^ 2044) with (2 ^ 2 * 2 ^ 2044). rewrite <- (pow_split 2 2044 2046) by (reflexivity || discriminate). apply Z.mul_le_mono_nonneg; [discriminate|exact Mm|apply Z.lt_le_incl, pow_pos; discriminate|apply Z.pow_le_mono_r; lia].
  - change (2 * 2 ^ 2044) with (2 ^ 1 * 2 ^ 2044). rewrite <- (pow_split 1 2044 2045) by (reflexivity || discriminate). intros N. exact (proj1 (F N)).
Qed.
(** ** Refuted *)
(** 513 * 2^-1084 is nearer to the least positive flonum 2^-1074 than to zero, but
    (inexact 513/2^1084) is 0.0 *)
Theorem inexact_subnormal_refuted : exists n d, 0 < d /\ Z.gcd n d = 1 /\ nearest (n * 2 ^ 1074) d 1 (-1074) /\
  rat_to_double n d = Fin 0 (-1074).
Proof.
  exists 513, (2 ^ 1084). split; [apply Z.pow_pos_nonneg; lia|]. split.
  { apply Zgcd_1_rel_prime. apply Zpow_facts.rel_prime_Zpower_r; [lia|]. apply Zgcd_1_rel_prime. reflexivity. }
  split.
  - replace (2 ^ 1084) with (1024 * 2 ^ 1074) by (change 1084 with (10 + 1074); rewrite Z.pow_add_r by lia; f_equal). assert (P : 0 < 2 ^ 1074) by (apply Z.pow_pos_nonneg; lia). set (c := 2 ^ 1074) in *. clearbody c.
    split; [unfold is_double; change (2 ^ 53) with 9007199254740992; lia|]. intros m k (A & B & _) N. change (units 1 (-1074)) with 1 in *. assert (0 <= units m k). { unfold units. pose proof (Z.pow_nonneg 2 (k + 1074) ltac:(lia)). nia. }
    set (u := units m k) in *. clearbody u. assert (u = 0 \/ 2 <= u) as [->|H2] by lia; [split; lia|]. assert (511 * c < Z.abs (u * (1024 * c) - 513 * c)) by nia. replace (Z.abs (1 * (1024 * c) - 513 * c)) with (511 * c) by lia. split; lia.
  - vm_compute. reflexivity.
Qed.
(** ** The hypotheses are met *)
Example inexact_third : get_double (ERat (Fix (-1)) (Fix 3)) = (true, Fin 6004799503160661 (-54)).
Proof. reflexivity. Qed.
Example inexact_tie : get_double (EInt (Fix 9007199254740993)) = (false, Fin 4503599627370496 1).
Proof. reflexivity. Qed.
Example inexact_bignum : get_double (EInt (Bn (Big (-1) [2 ^ 63 + 8193; 5]))) = (true, Fin 6192449487634433 14).
Proof. reflexivity. Qed.
Example inexact_wf : wf (ERat (Fix (-1)) (Fix 3)) /\ (1 # Pos.pow 2 1022 <= Qabs (rat_of (ERat (Fix (-1)) (Fix 3))))%Q.
Proof.
  split. { cbn [wf canonical int_of]. unfold in_fixnum_range. change (2 ^ 61) with 2305843009213693952. repeat split; try lia. }
  unfold Qle. cbn [rat_of int_of Qabs Qnum Qden Z.abs]. rewrite Pos2Z.inj_pow. change (Z.pos (Z.to_pos 3)) with 3. rewrite !Z.mul_1_l. apply Z.le_trans with (2 ^ 2); [lia|]. apply Z.pow_le_mono_r; lia.
Qed.

Print Assumptions inexact_integer.
Print Assumptions inexact_rational_partial.
Print Assumptions inexact_infinite.
Print Assumptions inexact_subnormal_refuted.
