(** Proofs about RzModel2: round trip, and comparison with ratnums *)
From Coq Require Import ZArith Znumtheory QArith Qabs List Bool Lia Qcanon Lqa.
From Verif Require Import Outcome BignumModel IntModel IntSpec RatModel RatSpec FloModel FloSpec FloProofs InexModel InexSpec InexProofs InexProps BignumProofs2 CmpModel CmpSpec FloProofs3 CmpProofs CmpProofs2 CmpProofs3 CmpProofs4 CmpProps RzModel RzModel2 RzSpec RzSpec2 RzProofs RzProofs2 RzProofs3 RzProofs4 RzProofs5.
Import ListNotations.
Local Open Scope Z_scope.
Ltac Zify.zify_post_hook ::= idtac.

Definition c1022 : Z := 2 ^ 1022.
Lemma c1022_pos : 0 < c1022. Proof. apply Z.pow_pos_nonneg; lia. Qed.
Lemma C_split : C1074 = 4503599627370496 * c1022. Proof. unfold C1074, c1022. change 4503599627370496 with (2 ^ 52). now rewrite <- Z.pow_add_r. Qed.
Lemma ln_den : Z.pos (Pos.pow 2 1022) = c1022. Proof. rewrite Pos2Z.inj_pow. reflexivity. Qed.
Lemma lower_normal m k : is_double m k -> 4503599627370496 <= m -> ~ (m = 4503599627370496 /\ k = -1074) -> (least_normal <= lower_end m k)%Q.
Proof.
  intros (K & _) Hm N. unfold lower_end. change (2 ^ 52) with 4503599627370496. pose proof (ulp_pos k K) as U0. pose proof c1022_pos as P.
  assert (U2 : -1074 < k -> 2 <= ulp k). { intros L. pose proof (ulp_S (k - 1) ltac:(lia)) as U. replace (k - 1 + 1) with k in U by lia. pose proof (ulp_pos (k - 1) ltac:(lia)). lia. }
  assert (T : forall n c, Z.pos c * 4503599627370496 <= n * ulp k -> (least_normal <= (n # c) * pow2 k)%Q).
  { intros n c H. pose proof (scale_compare n c (pow2 k) 1 (Pos.pow 2 1022) (ulp k) C1074 (pow2_units k K) C_pos) as SC. rewrite ln_den, C_split in SC. apply Qnot_lt_le. intros L. assert (L' : ((n # c) * pow2 k ?= 1 # 2 ^ 1022)%Q = Lt) by exact (proj1 (Qlt_alt _ _) L). rewrite SC in L'. apply (proj1 (Z.compare_lt_iff _ _)) in L'. clear SC. rename L' into SC. set (u := ulp k) in *. set (c2 := c1022) in *. clearbody u c2. clear - H SC P. assert (n * u * c2 < (Z.pos c * 4503599627370496) * c2) by lia. apply Z.mul_lt_mono_pos_r in H0; lia. }
  destruct (Z.eqb_spec m 4503599627370496) as [E|E]; cbn [andb]; [destruct (Z.ltb_spec (-1074) k) as [L|L]|]; apply T.
  - specialize (U2 L). nia.
  - exfalso. apply N. split; auto. lia.
  - nia.
Qed.
Lemma exact_normal neg m k : finite_double m k -> 4503599627370496 <= m -> (least_normal <= Qabs (rat_of (flonum_exact neg m k)))%Q.
Proof.
  intros Hd Hm. assert (Pm : 0 < m) by lia. destruct (exact_nearest neg m k Hd Pm) as (_ & _ & N). apply rounding_abs in N; auto. apply rounding_lower in N.
  destruct (Z.eq_dec m 4503599627370496) as [Em|Em]; [destruct (Z.eq_dec k (-1074)) as [Ek|Ek]|].
  - subst m k. clear N. assert (M : units 4503599627370496 (-1074) mod C1074 <> 0). { change (units 4503599627370496 (-1074)) with 4503599627370496. rewrite Z.mod_small; [discriminate|]. rewrite C_split. pose proof c1022_pos. split; [discriminate|]. assert (1 < c1022) by (apply Z.pow_gt_1; lia). lia. }
    destruct (nonintegral_value neg _ _ Hd Pm M) as (r & -> & (S1 & S2 & S3) & B1 & B2). destruct (rat_object_ok r S2 B1 B2) as (_ & _ & ->).
    assert (S0 : nearest_flonum (sgn_of neg 1 # Pos.pow 2 1022) (neg, Fin 4503599627370496 (-1074))).
    { assert (L : nearest_flonum least_normal (false, Fin 4503599627370496 (-1074))). { apply rounding_iff; auto. unfold rounding. change (Z.odd 4503599627370496) with false. destruct least_normal_in as (L1 & L2). split; [|exact L2]. apply Qle_trans with (2 := L1). apply lower_code. lia. }
      destruct neg; [|exact L]. apply nearest_sign; auto. }
    destruct (S3 _ _ S0) as (A1 & A2). apply rounding_abs in S1; auto. apply rounding_lower in S1. assert (Pr : (0 < Qabs r)%Q) by (apply Qlt_le_trans with (2 := S1); now apply lower_pos).
    destruct r as [a b]. unfold least_normal, Qle, Qlt, Qabs in *. cbn [Qnum Qden] in *. clear - A2 Pr. revert A2. set (c := Pos.pow 2 1022). clearbody c. intros A2. cbn [Qnum Qden] in *. nia.
  - apply Qle_trans with (2 := N). apply lower_normal; [apply Hd|lia|lia].
  - apply Qle_trans with (2 := N). apply lower_normal; [apply Hd|lia|lia].
Qed.
Lemma exact_round_trip neg m k : finite_double m k -> 4503599627370496 <= m -> get_double (flonum_exact neg m k) = (neg, Fin m k).
Proof.
  intros Hd Hm. assert (Pm : 0 < m) by lia. destruct (exact_nearest neg m k Hd Pm) as (W & _ & N). apply (nearest_flonum_unique (rat_of (flonum_exact neg m k))); auto. apply inexact_rational_partial; auto. now apply exact_normal.
Qed.
(** ** Order *)
Lemma nearest_order p q m k r : finite_double m k -> (0 <= p)%Q -> (0 <= q)%Q -> nearest_flonum p (false, Fin m k) -> nearest_flonum q r ->
  ((p <= q)%Q -> ext_lt (ext_of r) (F (units m k)) = false) /\ ((q <= p)%Q -> ext_lt (F (units m k)) (ext_of r) = false).
Proof.
  intros Hd Pp Pq (_ & m1 & k1 & N1 & E1) (S2 & m2 & k2 & N2 & E2). cbn [snd] in E1. destruct (Z.ltb_spec 971 k1) as [|K1]; [discriminate|]. injection E1 as -> ->. destruct r as [b f]. cbn [fst snd] in *. assert (b = false). { destruct b; auto. exfalso. apply (Qle_not_lt _ _ Pq). now apply S2. } subst b.
  assert (M12 : (p <= q)%Q -> units m1 k1 <= units m2 k2). { intros L. apply (nearest_mono (Z.abs (Qnum p) * C1074) (Z.pos (Qden p)) (Z.abs (Qnum q) * C1074) (Z.pos (Qden q))); auto; try reflexivity. pose proof C_pos. unfold Qle in *. destruct p as [a b], q as [c d]. cbn [Qnum Qden] in *. rewrite !Z.abs_eq by lia. clear N1 N2. set (C := C1074) in *. clearbody C. nia. }
  assert (M21 : (q <= p)%Q -> units m2 k2 <= units m1 k1). { intros L. apply (nearest_mono (Z.abs (Qnum q) * C1074) (Z.pos (Qden q)) (Z.abs (Qnum p) * C1074) (Z.pos (Qden p))); auto; try reflexivity. pose proof C_pos. unfold Qle in *. destruct p as [a b], q as [c d]. cbn [Qnum Qden] in *. rewrite !Z.abs_eq by lia. clear N1 N2. set (C := C1074) in *. clearbody C. nia. }
  rewrite E2. destruct (Z.ltb_spec 971 k2) as [K2|K2]; cbn [ext_of ext_lt].
  - split; auto. intros L. exfalso. specialize (M21 L). destruct N1 as (D1 & _), N2 as (D2 & _). pose proof (units_finite _ _ _ _ D2 D1 M21 K1). lia.
  - change (sv m2 k2) with (units m2 k2). split; intros L; apply Z.ltb_ge; auto.
Qed.
Lemma zero_exact neg k : flonum_exact neg 0 k = EInt (Fix 0).
Proof. unfold flonum_exact, exact_of, sv. rewrite Z.mul_0_l. destruct neg; reflexivity. Qed.
Lemma ln_pos : (0 < least_normal)%Q. Proof. reflexivity. Qed.
Lemma tame_flo neg m k : tame (Flo neg (Fin m k)) -> wf (flonum_exact neg m k) /\ moderate (flonum_exact neg m k) /\ (0 <= rat_of (flonum_exact neg m k))%Q /\ nearest_flonum (rat_of (flonum_exact neg m k)) (false, Fin m k) /\ ext_of (neg, Fin m k) = F (units m k).
Proof.
  intros (Hd & [E|(E & Hm)]).
  - subst m. rewrite zero_exact. assert (k = -1074). { destruct Hd as ((A & B & [C|C]) & _); auto. change (2 ^ 52) with 4503599627370496 in C. lia. } subst k. cbn [wf canonical moderate nwords rat_of int_of]. split. { unfold in_fixnum_range. change (2 ^ 61) with 2305843009213693952. lia. } split; [discriminate|]. split; [discriminate|]. split; [|destruct neg; reflexivity].
    split; [cbn [fst]; split; [discriminate|intros L; discriminate L]|]. exists 0, (-1074). split; [|reflexivity]. exact (nearest_exact 0 (-1074) (proj1 Hd)).
  - subst neg. destruct (exact_nearest false m k Hd ltac:(lia)) as (W & M & N). split; auto. split; auto. split; [|split; auto]. destruct N as (N & _). cbn [fst] in N. apply Qnot_lt_le. intros L. apply N in L. discriminate.
Qed.
Lemma order_Lt p q : (p < q)%Q -> order p q = -1. Proof. intros L. unfold order. pose proof (proj1 (Qlt_alt p q) L) as E. now rewrite E. Qed.
Lemma order_Gt p q : (q < p)%Q -> order p q = 1. Proof. intros L. unfold order. pose proof (proj1 (Qgt_alt p q) L) as E. now rewrite E. Qed.
(** the screening by doubles, then the exact comparison *)
Lemma flo_rat_ok neg m k n d : tame (Flo neg (Fin m k)) -> tame (Exact (ERat n d)) -> flo_exact_cmp r2r_object neg (Fin m k) (ERat n d) = Ok (order (rat_of (flonum_exact neg m k)) (rat_of (ERat n d))).
Proof.
  intros Ha (W & M & L). destruct (tame_flo neg m k Ha) as (Wx & Mx & Px & N & E). assert (Py : (0 <= rat_of (ERat n d))%Q) by (apply Qlt_le_weak, Qlt_le_trans with least_normal; auto using ln_pos).
  pose proof (inexact_rational_partial (ERat n d) W ltac:(rewrite Qabs_pos; auto)) as N2. cbn [flo_exact_cmp]. rewrite E. destruct (sub_sign (F (units m k)) (ext_of (get_double (ERat n d)))) as (-> & ->). destruct (nearest_order _ _ m k _ (proj1 Ha) Px Py N N2) as (A1 & A2).
  destruct (ext_lt (F (units m k)) (ext_of (get_double (ERat n d)))) eqn:X1. { f_equal. symmetry. apply order_Lt. apply Qnot_le_lt. intros L'. apply A2 in L'. discriminate. }
  destruct (ext_lt (ext_of (get_double (ERat n d))) (F (units m k))) eqn:X2. { f_equal. symmetry. apply order_Gt. apply Qnot_le_lt. intros L'. apply A1 in L'. discriminate. }
  fold (flonum_exact neg m k). apply exact_compare_nonnegative; auto.
Qed.
(** an integer is on the same side of a flonum as of its exact value *)
Lemma int_side neg m k n : tame (Flo neg (Fin m k)) -> order ((if neg then - units m k else units m k) # Pos.pow 2 1074) (inject_Z n) = order (rat_of (flonum_exact neg m k)) (inject_Z n).
Proof.
  intros Ha. pose proof C_pos as P. assert (ES : (if neg then - units m k else units m k) = units m k). { destruct (tame_flo neg m k Ha) as (_ & _ & _ & _ & E). rewrite ext_flo in E. now injection E. } rewrite ES. rewrite order_units. change c1074 with C1074. pose proof Ha as (Hd & C). destruct (Z.eq_dec (units m k mod C1074) 0) as [M|M].
  - destruct (integral_value neg m k Hd M) as (z & -> & E & B). assert (SZ : sgn_of neg z = z). { unfold sgn_of. destruct neg; auto. destruct C as [C|(C & _)]; [|discriminate]. subst m. unfold units in E. rewrite Z.mul_0_l in E. assert (z = 0) by nia. lia. } rewrite SZ. destruct (int_object_ok z ltac:(lia)) as (_ & I). cbn [rat_of]. rewrite I. unfold inject_Z. rewrite order_z, !Z.mul_1_r, E. set (c := C1074) in *. clearbody c. rewrite !cmpz_sgn. rewrite <- Z.mul_sub_distr_r, Z.sgn_mul, (Z.sgn_pos c) by auto. lia.
  - pose proof (nonintegral_neg m k Hd M) as Kn. assert (Pm : 0 < m). { destruct C as [->|(_ & C)]; [|lia]. exfalso. apply M. reflexivity. } assert (neg = false) by (destruct C as [C|(C & _)]; [lia|auto]). subst neg.
    destruct (exact_nearest false m k Hd Pm) as (_ & _ & N). apply rounding_iff in N; auto. set (r := rat_of (flonum_exact false m k)) in *. clearbody r. destruct Hd as ((K & _) & _).
    assert (CK : C1074 = 2 ^ (- k) * ulp k). { unfold C1074, ulp. rewrite <- Z.pow_add_r by lia. f_equal. lia. } pose proof (Z.pow_pos_nonneg 2 (- k) ltac:(lia) ltac:(lia)) as PK. pose proof (ulp_pos k K) as PU. rewrite units_ulp in *.
    assert (NE : m <> n * 2 ^ (- k)). { intros ->. apply M. rewrite CK. replace (n * 2 ^ (- k) * ulp k) with (n * (2 ^ (- k) * ulp k)) by ring. rewrite <- CK. apply Z.mod_mul. lia. }
    pose proof (scale_compare (2 * m + 1) 2 (pow2 k) n 1 (ulp k) C1074 (pow2_units k K) C_pos) as SU. pose proof (scale_compare (2 * m - 1) 2 (pow2 k) n 1 (ulp k) C1074 (pow2_units k K) C_pos) as SL. change (n # 1) with (inject_Z n) in SU, SL. fold (upper_end m k) in SU.
    assert (LL : ((2 * m - 1 # 2) * pow2 k <= lower_end m k)%Q). { unfold lower_end. destruct (_ && _); [|apply Qle_refl]. apply Qmult_le_compat_r; [|apply Qlt_le_weak, pow2_pos_q]. unfold Qle. cbn [Qnum Qden]. lia. }
    assert (RL : (lower_end m k <= r)%Q) by (now apply rounding_lower). assert (RU : (r <= upper_end m k)%Q). { unfold rounding in N. destruct (Z.odd m); destruct N as (_ & N); auto. now apply Qlt_le_weak. }
    rewrite Z.mul_1_r in SU, SL. rewrite CK in *. set (U := ulp k) in *. set (K2 := 2 ^ (- k)) in *. clearbody U K2. destruct (Z.lt_total m (n * K2)) as [L|[L|L]]; [|congruence|].
    + rewrite cmpz_lt by nia. symmetry. apply order_Lt. apply Qle_lt_trans with (1 := RU). apply Qlt_alt. rewrite SU. apply Z.compare_lt_iff. nia.
    + rewrite cmpz_gt by nia. symmetry. apply order_Gt. apply Qlt_le_trans with (2 := RL). apply Qlt_le_trans with (2 := LL). apply Qgt_alt. rewrite SL. apply Z.compare_gt_iff. nia.
Qed.
Lemma flo_side neg m k neg' m' k' : tame (Flo neg (Fin m k)) -> tame (Flo neg' (Fin m' k')) ->
  order ((if neg then - units m k else units m k) # Pos.pow 2 1074) ((if neg' then - units m' k' else units m' k') # Pos.pow 2 1074) = order (rat_of (flonum_exact neg m k)) (rat_of (flonum_exact neg' m' k')).
Proof.
  intros Ha Hb. destruct (tame_flo neg m k Ha) as (_ & _ & Px & N & E). destruct (tame_flo neg' m' k' Hb) as (_ & _ & Py & N' & E'). rewrite ext_flo in E, E'. injection E as E. injection E' as E'. rewrite E, E'. rewrite order_z. pose proof (nearest_order _ _ m k _ (proj1 Ha) Px Py N N') as (A1 & A2). cbn [ext_of ext_lt] in A1, A2. change (sv m' k') with (units m' k') in *. rewrite !Z.ltb_ge in A1, A2.
  assert (T : forall x y, cmpz (x * Z.pos (Pos.pow 2 1074)) (y * Z.pos (Pos.pow 2 1074)) = cmpz x y). { intros x y. rewrite !cmpz_sgn, <- Z.mul_sub_distr_r, Z.sgn_mul. set (p := Z.sgn (Z.pos _)). change p with 1. lia. } rewrite T. clear T.
  destruct (Z.lt_trichotomy (units m k) (units m' k')) as [L|[L|L]].
  - rewrite cmpz_lt by auto. symmetry. apply order_Lt. apply Qnot_le_lt. intros G. apply A2 in G. lia.
  - destruct (units_inj m k m' k' (proj1 (proj1 Ha)) (proj1 (proj1 Hb)) L) as (<- & <-). rewrite (proj2 (cmpz_eq _ _) eq_refl). assert (X : rat_of (flonum_exact neg m k) = rat_of (flonum_exact neg' m k)). { destruct Ha as (_ & [C|(C & Cm)]), Hb as (_ & [C'|(C' & Cm')]); subst; rewrite ?zero_exact; auto; lia. } rewrite X. unfold order. now rewrite (proj1 (Qeq_alt _ _)) by reflexivity.
  - rewrite cmpz_gt by auto. symmetry. apply order_Gt. apply Qnot_le_lt. intros G. apply A1 in G. lia.
Qed.
Lemma tame_int_or_flo a : tame a -> int_or_flo a -> real_ok a.
Proof. destruct a as [[n|]|neg [m k|]]; cbn [tame int_or_flo real_ok flo_ok wf]; tauto. Qed.
Lemma tame_exact x : tame (Exact x) -> wf x /\ moderate x /\ (0 <= rat_of x)%Q.
Proof.
  destruct x as [n|n d]; intros (A & B & C); split; auto; split; auto.
  - unfold Qle, rat_of, inject_Z. cbn [Qnum Qden]. lia.
  - apply Qle_trans with least_normal; auto. now apply Qlt_le_weak, ln_pos.
Qed.
Lemma real_compare_ok a b : tame a -> tame b -> num_cmp_real r2r_object a b = Ok (xorder (exact_value a) (exact_value b)).
Proof.
  intros Ha Hb. destruct a as [x|neg f], b as [y|neg' f'].
  - destruct (tame_exact _ Ha) as (W & M & P), (tame_exact _ Hb) as (W' & M' & P'). cbn [exact_value xorder]. replace (num_cmp_real r2r_object (Exact x) (Exact y)) with (exact_cmp x y) by (destruct x as [[]|]; reflexivity). now apply exact_compare_nonnegative.
  - destruct x as [n|n d].
    + rewrite int_flo_ok by (cbn [int_or_flo]; auto using tame_int_or_flo; apply tame_int_or_flo; cbn [int_or_flo]; auto). cbn [real_value exact_value]. destruct f' as [m k|]; [|destruct neg'; reflexivity]. cbn [flo_value xorder rat_of]. rewrite <- (order_opp (rat_of _)), <- int_side by auto. rewrite order_opp. reflexivity.
    + cbn [num_cmp_real exact_value]. destruct f' as [m k|]; [|destruct neg'; reflexivity]. rewrite flo_rat_ok by auto. cbn [bind xorder]. now rewrite order_opp.
  - destruct y as [n|n d].
    + rewrite int_flo_ok by (cbn [int_or_flo]; auto using tame_int_or_flo; apply tame_int_or_flo; cbn [int_or_flo]; auto). cbn [real_value exact_value]. destruct f as [m k|]; [|destruct neg; reflexivity]. cbn [flo_value xorder rat_of]. now rewrite int_side by auto.
    + cbn [num_cmp_real exact_value]. destruct f as [m k|]; [|destruct neg; reflexivity]. rewrite flo_rat_ok by auto. reflexivity.
  - rewrite int_flo_ok by (cbn [int_or_flo]; auto; apply tame_int_or_flo; cbn [int_or_flo]; auto). destruct f as [m k|], f' as [m' k'|]; try (destruct neg, neg'; reflexivity). cbn [real_value exact_value flo_value xorder]. now rewrite flo_side.
Qed.
