(** Proofs about CmpModel: rounding is monotone; exact comparison *)
From Coq Require Import ZArith List Bool Lia.
From Verif Require Import Outcome BignumModel BignumProofs2 IntModel IntSpec IntProofs RatModel FloModel FloSpec FloProofs FloProofs3 FloProofs7 InexModel InexProofs CmpModel.
Import ListNotations.
Local Open Scope Z_scope.
Ltac Zify.zify_post_hook ::= idtac.

Definition fle (f g : flo) : Prop :=
  match f, g with _, Inf => True | Inf, Fin _ _ => False | Fin m k, Fin m' k' => units m k <= units m' k' end.
Lemma nearest_mono N1 D1 N2 D2 m1 k1 m2 k2 : 0 < D1 -> 0 < D2 -> N1 * D2 <= N2 * D1 -> nearest N1 D1 m1 k1 -> nearest N2 D2 m2 k2 -> units m1 k1 <= units m2 k2.
Proof.
  intros P1 P2 L H1 H2. apply (nearest_scale D2) in H1; auto. apply (nearest_scale D1) in H2; auto. rewrite (Z.mul_comm D1 D2) in H2. assert (PD : 0 < D2 * D1) by nia.
  rewrite (Z.mul_comm D2 N1) in H1. rewrite (Z.mul_comm D1 N2) in H2. set (A := N1 * D2) in *. set (B := N2 * D1) in *. set (D := D2 * D1) in *. clearbody A B D. clear N1 N2 P1 P2 D1 D2.
  apply Z.le_ngt. intros G. destruct (Z.le_gt_cases B (units m2 k2 * D)) as [C|C]. { pose proof (nearest_le _ _ _ _ m2 k2 PD H1 ltac:(apply H2) ltac:(lia)). lia. }
  destruct (Z.le_gt_cases (units m1 k1 * D) A) as [C2|C2]. { pose proof (nearest_ge _ _ _ _ m1 k1 PD H2 ltac:(apply H1) ltac:(lia)). lia. }
  pose proof H1 as (I1 & F1). pose proof H2 as (I2 & F2). destruct (F1 m2 k2 I2 ltac:(lia)) as (X1 & _). destruct (F2 m1 k1 I1 ltac:(lia)) as (X2 & _).
  destruct (Z.eq_dec A B) as [E|E]. { subst B. destruct (nearest_unique _ _ _ _ _ _ PD H1 H2) as (-> & ->). lia. }
  assert (units m2 k2 * D < units m1 k1 * D) by (apply Z.mul_lt_mono_pos_r; auto). lia.
Qed.
Lemma units_finite m k m' k' : is_double m k -> is_double m' k' -> units m k <= units m' k' -> k' <= 971 -> k <= 971.
Proof.
  intros (A & B & C) (A' & B' & C') L K. apply Z.le_ngt. intros G. assert (M : 2 ^ 52 <= m) by lia. unfold units in L. rewrite p53_val, p52_val in *. assert (E : 2 ^ (k + 1074) = 2 ^ (k - k' ) * 2 ^ (k' + 1074)) by (rewrite <- Z.pow_add_r by lia; f_equal; lia).
  pose proof (pow2_pos (k' + 1074) ltac:(lia)) as P. assert (2 <= 2 ^ (k - k')) by (change 2 with (2 ^ 1) at 1; apply Z.pow_le_mono_r; lia). rewrite E in L. set (u := 2 ^ (k' + 1074)) in *. set (w := 2 ^ (k - k')) in *. clearbody u w. assert (9007199254740992 <= m * w) by nia. nia.
Qed.
Lemma rnd_le N1 D1 N2 D2 : 0 < D1 -> 0 < D2 -> 0 <= N1 -> 0 <= N2 -> N1 * D2 <= N2 * D1 -> fle (rnd N1 D1) (rnd N2 D2).
Proof.
  intros P1 P2 H1 H2 L. destruct (rnd_nearest N1 D1 P1 H1) as (m1 & k1 & R1 & E1). destruct (rnd_nearest N2 D2 P2 H2) as (m2 & k2 & R2 & E2). rewrite E1, E2. pose proof (nearest_mono _ _ _ _ _ _ _ _ P1 P2 L R1 R2) as U.
  destruct (Z.ltb_spec 971 k2) as [K2|K2]; [destruct (971 <? k1); exact I|]. destruct (Z.ltb_spec 971 k1) as [K1|K1]; [|exact U]. cbn [fle]. pose proof (units_finite _ _ _ _ (proj1 R1) (proj1 R2) U K2). lia.
Qed.
Lemma rnd_double m k : finite_double m k -> rnd (units m k) 1 = Fin m k.
Proof.
  intros (Hd & K). destruct (rnd_nearest (units m k) 1 ltac:(lia) (units_nonneg _ _ Hd)) as (m' & k' & R & E). destruct (nearest_unique _ _ _ _ _ _ Z.lt_0_1 R (nearest_exact _ _ Hd)) as (-> & ->). rewrite E. now rewrite (proj2 (Z.ltb_ge _ _) K).
Qed.
Lemma rnd_is_double N D m k : 0 < D -> 0 <= N -> rnd N D = Fin m k -> finite_double m k.
Proof. intros P H E. destruct (rnd_nearest N D P H) as (m' & k' & R & E2). rewrite E in E2. destruct (Z.ltb_spec 971 k') as [K|K]; [discriminate|]. injection E2 as -> ->. split; auto. apply R. Qed.
(** the doubles 1, 1/2, 0 in units *)
Lemma double_pow j : 0 <= j -> j <= 2097 -> exists m k, finite_double m k /\ units m k = 2 ^ j.
Proof.
  intros J0 J1. destruct (Z.le_gt_cases j 52) as [L|L].
  - exists (2 ^ j), (-1074). split; [|unfold units; change (-1074 + 1074) with 0; lia]. split; [split; [lia|]|lia]. split; [|now left]. split; [apply Z.pow_nonneg; lia|]. apply Z.pow_lt_mono_r; lia.
  - exists (2 ^ 52), (j - 52 - 1074). split. { split; [|lia]. split; [lia|]. split; [|right; lia]. split; [lia|reflexivity]. } unfold units. rewrite <- Z.pow_add_r by lia. f_equal. lia.
Qed.
Notation c1074 := (2 ^ 1074).
Lemma c_pos : 0 < c1074. Proof. apply Z.pow_pos_nonneg; lia. Qed.
Lemma c_nn v : 0 <= v -> 0 <= v * c1074. Proof. intros. apply Z.mul_nonneg_nonneg; auto. apply Z.lt_le_incl, c_pos. Qed.
Lemma p_nn n : 0 <= 2 ^ n. Proof. now apply Z.pow_nonneg. Qed.
Lemma c_split a b : a + 1074 = b -> 0 <= a -> 2 ^ b = 2 ^ a * c1074. Proof. intros <- H. now apply Z.pow_add_r. Qed.
(** fixnums as doubles are finite *)
Lemma fix_fin v : 0 <= v <= 2 ^ 61 -> exists m k, rnd (v * c1074) 1 = Fin m k /\ finite_double m k.
Proof.
  intros H. pose proof c_pos as P. destruct (double_pow 1135 ltac:(lia) ltac:(lia)) as (m2 & k2 & D2 & U2). pose proof (rnd_double _ _ D2) as E2.
  assert (L : fle (rnd (v * c1074) 1) (rnd (units m2 k2) 1)). { rewrite U2. apply rnd_le; [reflexivity|reflexivity|apply c_nn; lia|apply p_nn|]. rewrite (c_split 61 1135) by (reflexivity || discriminate). rewrite !Z.mul_1_r. apply Z.mul_le_mono_nonneg_r; [apply p_nn|apply H]. }
  rewrite E2 in L. destruct (rnd (v * c1074) 1) as [m k|] eqn:E; [|contradiction]. exists m, k. split; auto. apply rnd_is_double in E; [exact E|reflexivity|apply c_nn; lia].
Qed.
Lemma rnd_pos z m k : 1 <= z -> rnd z 1 = Fin m k -> 0 < units m k.
Proof.
  intros H E. assert (L : fle (rnd 1 1) (rnd z 1)) by (apply rnd_le; lia). assert (D1 : finite_double 1 (-1074)) by (split; [unfold is_double; rewrite p53_val; lia|lia]).  change (rnd 1 1) with (Fin 1 (-1074)) in L. rewrite E in L. cbn [fle] in L. change (units 1 (-1074)) with 1 in L. lia.
Qed.
(** small results of ldexp *)
Lemma ldexp_small X s : 0 <= X <= 2 ^ 56 -> 57 <= s -> exists m k, ldexp_down (int_to_double X) s = Fin m k /\ finite_double m k /\ 2 * units m k <= c1074.
Proof.
  intros H Hs. pose proof c_pos as P. destruct (double_pow 1130 ltac:(lia) ltac:(lia)) as (m2 & k2 & D2 & U2). pose proof (rnd_double _ _ D2) as E2.
  assert (E56 : 2 ^ 1130 = 2 ^ 56 * c1074) by (apply c_split; reflexivity || discriminate).
  assert (L : fle (rnd (X * c1074) 1) (rnd (units m2 k2) 1)). { rewrite U2. apply rnd_le; [reflexivity|reflexivity|apply c_nn; lia|apply p_nn|]. rewrite E56, !Z.mul_1_r. apply Z.mul_le_mono_nonneg_r; [apply p_nn|apply H]. }
  rewrite E2 in L. unfold int_to_double. destruct (rnd (X * c1074) 1) as [m k|] eqn:E; [|contradiction]. cbn [fle] in L. apply rnd_is_double in E; [|reflexivity|apply c_nn; lia]. cbn [ldexp_down].
  change (sv m k) with (units m k). pose proof (units_nonneg _ _ (proj1 E)) as U0. pose proof (pow2_pos s ltac:(lia)) as Ps.
  destruct (double_pow 1073 ltac:(lia) ltac:(lia)) as (m3 & k3 & D3 & U3). pose proof (rnd_double _ _ D3) as E3.
  assert (E73 : c1074 = 2 * 2 ^ 1073) by (rewrite <- Z.pow_succ_r by discriminate; f_equal).
  assert (L3 : fle (rnd (units m k) (2 ^ s)) (rnd (units m3 k3) 1)).
  { rewrite U3. apply rnd_le; [exact Ps|reflexivity|exact U0|apply p_nn|]. rewrite Z.mul_1_r. eapply Z.le_trans; [exact L|]. rewrite U2, E56, E73. replace s with (57 + (s - 57)) by lia. rewrite (Z.pow_add_r 2 57) by lia. pose proof (pow2_pos (s - 57) ltac:(lia)) as Pt. pose proof (pow2_pos 1073 ltac:(lia)) as P3. change (2 ^ 57) with (2 ^ 56 * 2). set (a := 2 ^ (s - 57)) in *. set (b := 2 ^ 1073) in *. set (d := 2 ^ 56). clearbody a b. assert (0 < d) by reflexivity. clearbody d. replace (d * (2 * b)) with (d * (2 * b) * 1) by lia. replace (b * (d * 2 * a)) with (d * (2 * b) * a) by ring. apply Z.mul_le_mono_nonneg_l; nia. }
  rewrite E3 in L3. destruct (rnd (units m k) (2 ^ s)) as [m4 k4|] eqn:E4; [|contradiction]. exists m4, k4. split; auto. split; [eapply rnd_is_double; eauto|]. cbn [fle] in L3. rewrite U3 in L3. rewrite E73. apply Z.mul_le_mono_nonneg_l; [discriminate|exact L3].
Qed.
(** ratnums below the least normal double *)
Lemma rat_full_tiny n d : 0 < n -> 0 < d -> n * 2 ^ 1022 < d -> exists m k, rat_full n d = Fin m k /\ finite_double m k /\ 2 * units m k <= c1074.
Proof.
  intros Hn Hd T. unfold rat_full, hi_bit. assert (LG : Z.log2 n + 1022 <= Z.log2 d). { pose proof (Z.log2_le_mono (n * 2 ^ 1022) d (Z.lt_le_incl _ _ T)) as M. rewrite Z.log2_mul_pow2 in M; lia. }
  rewrite (proj2 (Z.ltb_lt _ 54)) by lia. set (s := 54 - (Z.log2 n - Z.log2 d)). assert (S1 : 57 <= s) by (unfold s; lia).
  assert (Q : 0 <= n * 2 ^ s / d < 2 ^ 55).
  { pose proof (pow2_pos s ltac:(lia)) as Ps. split; [apply Z.div_pos; nia|]. apply Z.div_lt_upper_bound; auto. pose proof (Z.log2_spec n Hn) as (_ & N2). pose proof (Z.log2_spec d Hd) as (D1 & _). 
    assert (E : 2 ^ Z.succ (Z.log2 n) * 2 ^ s = 2 ^ Z.log2 d * 2 ^ 55). { pose proof (Z.log2_nonneg n). pose proof (Z.log2_nonneg d). rewrite <- !Z.pow_add_r by lia. f_equal. unfold s. lia. }
    pose proof (proj1 (Z.mul_lt_mono_pos_r (2 ^ s) _ _ Ps) N2). assert (2 ^ Z.log2 d * 2 ^ 55 <= d * 2 ^ 55) by (apply Z.mul_le_mono_nonneg_r; [apply p_nn|exact D1]). lia. }
  set (quo := if 1076 <? s then _ else _). assert (Q2 : 0 <= quo < 2 ^ 55).
  { unfold quo. destruct (1076 <? s); auto. split; [apply Z.land_nonneg; lia|]. eapply Z.le_lt_trans; [|apply Q]. 
    assert (B : 0 <= Z.ldiff (n * 2 ^ s / d) (Z.lnot (2 ^ (s - 1076 - 1) - 1))) by (apply Z.ldiff_nonneg; lia).
    assert (C : Z.land (n * 2 ^ s / d) (Z.lnot (2 ^ (s - 1076 - 1) - 1)) + Z.ldiff (n * 2 ^ s / d) (Z.lnot (2 ^ (s - 1076 - 1) - 1)) = n * 2 ^ s / d).
    { rewrite Z.add_nocarry_lxor. - apply Z.bits_inj'. intros i Hi. rewrite Z.lxor_spec, Z.land_spec, Z.ldiff_spec. now destruct (Z.testbit (n * 2 ^ s / d) i), (Z.testbit (Z.lnot (2 ^ (s - 1076 - 1) - 1)) i). - apply Z.bits_inj'. intros i Hi. rewrite !Z.land_spec, Z.ldiff_spec, Z.bits_0. now destruct (Z.testbit (n * 2 ^ s / d) i), (Z.testbit (Z.lnot (2 ^ (s - 1076 - 1) - 1)) i). }
    lia. }
  clearbody quo. set (rem := (n * 2 ^ s) mod d). clearbody rem. cbv zeta.
  assert (E55 : 2 ^ 55 = 36028797018963968) by reflexivity. assert (E56 : 2 ^ 56 = 72057594037927936) by reflexivity.
  destruct (double_precision quo); [apply ldexp_small; lia|]. destruct (Z.testbit quo (Z.log2 quo - 53)) eqn:TB; cbn [negb]; [|apply ldexp_small; lia].
  assert (K : 53 <= Z.log2 quo). { destruct (Z.le_gt_cases 53 (Z.log2 quo)); auto. rewrite Z.testbit_neg_r in TB by lia. discriminate. }
  assert (PQ : 0 < quo) by (destruct (Z.eq_dec quo 0) as [->|]; [rewrite Z.log2_nonpos in K by lia; lia|lia]). pose proof (Z.log2_spec quo PQ) as (L1 & _).
  assert (M : 0 < 2 ^ (Z.log2 quo - 53) <= quo). { split; [apply pow2_pos; lia|]. eapply Z.le_trans; [|exact L1]. apply Z.pow_le_mono_r; lia. }
  destruct (_ || _); [apply ldexp_small; lia|]. destruct (negb _); apply ldexp_small; lia.
Qed.
Lemma rat_tiny n d : 0 < n -> 0 < d -> n * 2 ^ 1022 < d -> exists m k, rat_to_double n d = Fin m k /\ finite_double m k /\ 2 * units m k <= c1074.
Proof.
  intros Hn Hd T. unfold rat_to_double. destruct (_ && _); [|now apply rat_full_tiny]. destruct (int_to_double n); [|now apply rat_full_tiny]. destruct (int_to_double d); [|now apply rat_full_tiny].
  destruct (double_pow 1073 ltac:(lia) ltac:(lia)) as (m3 & k3 & D3 & U3). pose proof (rnd_double _ _ D3) as E3.
  assert (E73 : c1074 = 2 * 2 ^ 1073) by (rewrite <- Z.pow_succ_r by discriminate; f_equal).
  assert (L : fle (rnd (n * c1074) d) (rnd (units m3 k3) 1)). { rewrite U3. apply rnd_le; [exact Hd|reflexivity|apply c_nn; lia|apply p_nn|]. rewrite E73, Z.mul_1_r. assert (N2 : n * 2 <= d). { apply Z.le_trans with (n * 2 ^ 1022); [|apply Z.lt_le_incl, T]. apply Z.mul_le_mono_nonneg_l; [lia|]. change 2 with (2 ^ 1) at 1. apply Z.pow_le_mono_r; lia. } clear - N2. pose proof (pow2_pos 1073 ltac:(lia)) as P. set (b := 2 ^ 1073) in *. clearbody b. nia. }
  rewrite E3 in L. destruct (rnd (n * c1074) d) as [m4 k4|] eqn:E4; [|contradiction]. exists m4, k4. split; auto. split; [eapply rnd_is_double; [| |exact E4]; [exact Hd|apply c_nn; lia]|]. cbn [fle] in L. rewrite U3 in L. rewrite E73. apply Z.mul_le_mono_nonneg_l; [discriminate|exact L].
Qed.
(** the double of a positive ratnum and those of integers are in the right order *)
Lemma rnd_one : exists m k, rnd (1 * c1074) 1 = Fin m k /\ units m k = c1074.
Proof. destruct (double_pow 1074 ltac:(lia) ltac:(lia)) as (m & k & D & U). exists m, k. split; auto. rewrite Z.mul_1_l, <- U. now apply rnd_double. Qed.
Lemma rat_int_mono n d v : 0 < n -> 0 < d -> 0 <= v ->
  (v * d <= n -> fle (rnd (v * c1074) 1) (rat_to_double n d)) /\ (n <= v * d -> fle (rat_to_double n d) (rnd (v * c1074) 1)).
Proof.
  intros Hn Hd Hv. pose proof c_pos as P. destruct (Z.le_gt_cases d (n * 2 ^ 1022)) as [L|L].
  - rewrite rat_to_double_ok by auto. split; intros H; (apply rnd_le; [lia|lia|apply c_nn; lia|apply c_nn; lia|]); set (c := c1074) in *; clearbody c; nia.
  - destruct (rat_tiny n d Hn Hd L) as (m & k & E & Fd & U). rewrite E. assert (Nd : n < d). { apply Z.le_lt_trans with (n * 2 ^ 1022); auto. rewrite <- (Z.mul_1_r n) at 1. apply Z.mul_le_mono_nonneg_l; [lia|]. change 1 with (2 ^ 0). apply Z.pow_le_mono_r; lia. } pose proof (units_nonneg _ _ (proj1 Fd)) as U0. split; intros H.
    + assert (v = 0) by nia. subst. rewrite Z.mul_0_l, rnd_zero by lia. cbn [fle]. exact U0.
    + assert (1 <= v) by nia. destruct rnd_one as (m1 & k1 & E1 & U1). assert (X : fle (rnd (1 * c1074) 1) (rnd (v * c1074) 1)) by (apply rnd_le; [reflexivity|reflexivity|apply c_nn; discriminate|apply c_nn; lia|rewrite !Z.mul_1_r; apply Z.mul_le_mono_nonneg_r; [apply p_nn|assumption]]).
      rewrite E1 in X. destruct (rnd (v * c1074) 1) as [m2 k2|]; [|exact I]. cbn [fle] in X |- *. rewrite U1 in X. eapply Z.le_trans; [|exact X]. eapply Z.le_trans; [|exact U]. lia.
Qed.
Lemma rat_fin_double n d m k : 0 < n -> 0 < d -> rat_to_double n d = Fin m k -> finite_double m k.
Proof.
  intros Hn Hd E. destruct (Z.le_gt_cases d (n * 2 ^ 1022)) as [L|L].
  - rewrite rat_to_double_ok in E by auto. apply rnd_is_double in E; auto. apply c_nn. lia.
  - destruct (rat_tiny n d Hn Hd L) as (m' & k' & E' & Fd & _). rewrite E in E'. injection E' as -> ->. exact Fd.
Qed.
