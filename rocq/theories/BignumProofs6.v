(** Scm_BignumDivSI, Scm_BignumRemSI, Scm_BignumDivRem. *)
From Coq Require Import List Bool ZArith Lia.
From Verif Require Import Outcome BignumModel IntSpec BignumProofs BignumProofs2 BignumProofs4 BignumProofs5.
Import ListNotations.
Local Open Scope Z_scope.
Ltac Zify.zify_post_hook ::= idtac.

(** the highest set bit *)
Lemma land_low : forall y m b, 0 <= b -> 0 <= y < 2 ^ b -> Z.land y m = Z.land y (m mod 2 ^ b).
Proof.
  intros y m b Hb Hy. apply Z.bits_inj'. intros i Hi. rewrite !Z.land_spec. destruct (Z.ltb_spec i b).
  - rewrite Z.mod_pow2_bits_low by lia. reflexivity.
  - replace (Z.testbit y i) with false; [reflexivity|]. symmetry. destruct (Z.eq_dec y 0) as [->|]; [apply Z.bits_0|]. apply Z.bits_above_log2; [lia|]. apply Z.lt_le_trans with b; auto. apply Z.log2_lt_pow2; lia.
Qed.
Lemma land_upper : forall y b, 0 <= b -> 0 <= y < 2 ^ (2 * b) -> Z.land y ((2 ^ b - 1) * 2 ^ b) = y / 2 ^ b * 2 ^ b.
Proof.
  intros y b Hb Hy. replace (2 ^ b - 1) with (Z.ones b) by (rewrite Z.ones_equiv; lia).
  apply Z.bits_inj'. intros i Hi. rewrite Z.land_spec. destruct (Z.ltb_spec i b).
  - rewrite !Z.mul_pow2_bits_low by lia. apply andb_false_r.
  - rewrite !Z.mul_pow2_bits by lia. rewrite Z.div_pow2_bits by lia. replace (i - b + b) with i by lia. destruct (Z.ltb_spec i (2 * b)).
    + rewrite Z.ones_spec_low by lia. apply andb_true_r.
    + rewrite Z.ones_spec_high by lia. rewrite andb_false_r. symmetry. destruct (Z.eq_dec y 0) as [->|]; [apply Z.bits_0|]. apply Z.bits_above_log2; [lia|]. apply Z.lt_le_trans with (2 * b); auto. apply Z.log2_lt_pow2; lia.
Qed.
Lemma hbn_step_ok : forall b n y m, 0 < b -> 0 <= n -> 0 < y < 2 ^ (2 * b) -> m / 2 ^ n mod 2 ^ (2 * b) = (2 ^ b - 1) * 2 ^ b ->
  exists n' y', hbn_step m b (n, y * 2 ^ n) = (n', y' * 2 ^ n') /\ 0 < y' < 2 ^ b /\ n' + Z.log2 y' = n + Z.log2 y /\ (n' = n \/ n' = n + b).
Proof.
  intros b n y m Hb Hn Hy Hm. assert (E : Z.land (y * 2 ^ n) m = y / 2 ^ b * 2 ^ (n + b)).
  { rewrite Z.pow_add_r by lia. replace (y / 2 ^ b * (2 ^ n * 2 ^ b)) with (y / 2 ^ b * 2 ^ b * 2 ^ n) by ring. rewrite <- land_upper by lia. rewrite <- Hm, <- land_low by lia.
    apply Z.bits_inj'. intros i Hi. rewrite Z.land_spec. destruct (Z.ltb_spec i n).
    - rewrite !Z.mul_pow2_bits_low by lia. reflexivity.
    - rewrite !Z.mul_pow2_bits by lia. rewrite Z.land_spec, Z.div_pow2_bits by lia. f_equal. f_equal. lia. }
  unfold hbn_step. rewrite E. assert (P1 : 0 < 2 ^ b) by (apply Z.pow_pos_nonneg; lia). assert (P2 : 0 < 2 ^ (n + b)) by (apply Z.pow_pos_nonneg; lia).
  assert (Y : 0 <= y / 2 ^ b) by (apply Z.div_pos; lia). destruct (Z.eq_dec (y / 2 ^ b) 0) as [E0|N0].
  - rewrite E0, Z.mul_0_l. change (0 =? 0) with true. cbn match. exists n, y. split; auto. split; [|auto]. apply Z.div_small_iff in E0; lia.
  - rewrite (proj2 (Z.eqb_neq _ _)) by nia. exists (n + b), (y / 2 ^ b). split; auto. split.
    + split; [lia|]. apply Z.div_lt_upper_bound; auto. rewrite <- Z.pow_add_r by lia. replace (b + b) with (2 * b) by lia. lia.
    + split; [|auto]. rewrite <- Z.shiftr_div_pow2, Z.log2_shiftr by lia. assert (b <= Z.log2 y). { apply Z.log2_le_pow2; [lia|]. destruct (Z.ltb_spec y (2 ^ b)); [|lia]. rewrite Z.div_small in N0; lia. } lia.
Qed.
Lemma highest_bit_ok : forall w, 0 < w < W -> highest_bit_number w = Z.log2 w.
Proof.
  intros w Hw. unfold highest_bit_number.
  destruct (hbn_step_ok 32 0 w 18446744069414584320 ltac:(lia) ltac:(lia) Hw eq_refl) as (n1 & y1 & E1 & Y1 & L1 & N1).
  replace (0, w) with (0, w * 2 ^ 0) by (f_equal; lia). rewrite E1.
  destruct (hbn_step_ok 16 n1 y1 18446462603027742720 ltac:(lia) ltac:(lia) Y1 ltac:(destruct N1 as [->| ->]; reflexivity)) as (n2 & y2 & E2 & Y2 & L2 & N2). rewrite E2.
  assert (I2 : In n2 [0;16;32;48]) by (cbn [In]; lia).
  destruct (hbn_step_ok 8 n2 y2 18374966859414961920 ltac:(lia) ltac:(lia) Y2) as (n3 & y3 & E3 & Y3 & L3 & N3).
  { cbn [In] in I2. decompose [or] I2; subst; try contradiction; reflexivity. } rewrite E3.
  assert (I3 : In n3 [0;8;16;24;32;40;48;56]) by (cbn [In] in *; lia).
  destruct (hbn_step_ok 4 n3 y3 17361641481138401520 ltac:(lia) ltac:(lia) Y3) as (n4 & y4 & E4 & Y4 & L4 & N4).
  { cbn [In] in I3. decompose [or] I3; subst; try contradiction; reflexivity. } rewrite E4.
  assert (I4 : In n4 [0;4;8;12;16;20;24;28;32;36;40;44;48;52;56;60]) by (clear - I3 N4; cbn [In] in *; decompose [or] I3; subst; try contradiction; destruct N4 as [->| ->]; cbn; tauto).
  destruct (hbn_step_ok 2 n4 y4 14757395258967641292 ltac:(lia) ltac:(lia) Y4) as (n5 & y5 & E5 & Y5 & L5 & N5).
  { cbn [In] in I4. clear - I4. decompose [or] I4; subst; try contradiction; reflexivity. } rewrite E5.
  assert (I5 : In n5 [0;4;8;12;16;20;24;28;32;36;40;44;48;52;56;60] \/ In (n5 - 2) [0;4;8;12;16;20;24;28;32;36;40;44;48;52;56;60]).
  { destruct N5 as [->| ->]; [left; exact I4|right]. replace (n4 + 2 - 2) with n4 by lia. exact I4. }
  destruct (hbn_step_ok 1 n5 y5 12297829382473034410 ltac:(lia) ltac:(lia) Y5) as (n6 & y6 & E6 & Y6 & L6 & N6).
  { clear - I5. destruct I5 as [I5|I5]; cbn [In] in I5.
    - decompose [or] I5; subst; try contradiction; reflexivity.
    - decompose [or] I5; try contradiction; match goal with H : ?c = n5 - 2 |- _ => replace n5 with (c + 2) by lia; reflexivity end. }
  unfold hbn_step in E6. assert (y6 = 1) by lia. subst y6. change (Z.log2 1) with 0 in L6.
  destruct (Z.land (y5 * 2 ^ n5) 12297829382473034410 =? 0); injection E6 as E7 _; clear - E7 L1 L2 L3 L4 L5 L6; lia.
Qed.

(** remainder by a small integer *)
Lemma remsi_word_ok : forall fuel m x t shift dd a b m0, 0 < shift -> 2 ^ (63 - shift) <= dd < 2 ^ (64 - shift) -> shift < 64 -> 0 <= t <= 64 -> 64 - t < Z.of_nat fuel ->
  0 <= b < 2 ^ (64 - t) -> x = b * 2 ^ t -> m = (m0 * 2 ^ t + a) mod dd ->
  remsi_word fuel m x t shift dd = Ok ((m0 * W + a * 2 ^ (64 - t) + b) mod dd).
Proof.
  induction fuel; intros m x t shift dd a b m0 Hs Hd Hs2 Ht Hf Hb Hx Hm; [lia|]. cbn [remsi_word].
  assert (Dd : 0 < dd) by (pose proof (Z.pow_pos_nonneg 2 (63 - shift) ltac:(lia) ltac:(lia)); lia).
  destruct (Z.ltb_spec t 64) as [L|L].
  - set (s := if t + shift <? 64 then shift else 64 - t). assert (S1 : 0 < s <= shift /\ t + s <= 64) by (unfold s; destruct (Z.ltb_spec (t + shift) 64); lia).
    pose proof (Z.mod_pos_bound (m0 * 2 ^ t + a) dd Dd) as Mb. rewrite <- Hm in Mb.
    assert (EW : 2 ^ (64 - t - s) * 2 ^ (t + s) = W) by (rewrite <- Z.pow_add_r by lia; replace (64 - t - s + (t + s)) with 64 by lia; reflexivity).
    assert (P0 : 0 < 2 ^ t) by (apply Z.pow_pos_nonneg; lia). assert (P1 : 0 < 2 ^ s) by (apply Z.pow_pos_nonneg; lia). assert (P2 : 0 < 2 ^ (64 - t - s)) by (apply Z.pow_pos_nonneg; lia).
    assert (Hb2 : b < 2 ^ (64 - t - s) * 2 ^ s) by (rewrite <- Z.pow_add_r by lia; replace (64 - t - s + s) with (64 - t) by lia; lia).
    set (C := 2 ^ (64 - t - s)) in *. pose proof (Z.div_mod b C ltac:(lia)) as DM. pose proof (Z.mod_pos_bound b C P2) as MB. set (c := b / C) in *. set (b' := b mod C) in *.
    assert (Hc : 0 <= c < 2 ^ s) by (split; [apply Z.div_pos; lia|apply Z.div_lt_upper_bound; lia]).
    assert (Ec : ushr x (64 - s) = c).
    { rewrite ushr_div by lia. subst x. replace (64 - s) with (64 - t - s + t) by lia. rewrite Z.pow_add_r by lia. fold C. rewrite Z.div_mul_cancel_r by lia. reflexivity. }
    assert (Ex : ushl x s = b' * 2 ^ (t + s)).
    { unfold ushl, uwrap. rewrite Z.shiftl_mul_pow2 by lia. subst x. rewrite <- Z.mul_assoc, <- Z.pow_add_r by lia. rewrite DM. replace ((C * c + b') * 2 ^ (t + s)) with (b' * 2 ^ (t + s) + c * (C * 2 ^ (t + s))) by ring. rewrite EW, Z.mod_add by discriminate.
      apply Z.mod_small. split; [apply Z.mul_nonneg_nonneg; try lia; apply Z.pow_nonneg; lia|]. rewrite <- EW. apply Z.mul_lt_mono_pos_r; [apply Z.pow_pos_nonneg|]; lia. }
    assert (Em : ushl m s = m * 2 ^ s).
    { rewrite ushl_mod by lia. rewrite Z.mod_small; [reflexivity|]. split; [lia|]. apply Z.lt_le_trans with dd; [lia|]. apply Z.le_trans with (2 ^ (64 - shift)); [lia|]. apply Z.pow_le_mono_r; lia. }
    rewrite Ec, Ex, Em, lor_disjoint by lia. unfold umod. rewrite (proj2 (Z.eqb_neq _ _)) by lia. cbn [bind].
    rewrite (IHfuel _ _ (t + s) shift dd (a * 2 ^ s + c) b' m0); auto; try lia.
    + f_equal. f_equal. rewrite <- (Z.add_assoc (m0 * W)), <- (Z.add_assoc (m0 * W)). f_equal. rewrite DM. replace (64 - (t + s)) with (64 - t - s) by lia. fold C. replace (64 - t) with (64 - t - s + s) by lia. rewrite Z.pow_add_r by lia. fold C. ring.
    + replace (64 - (t + s)) with (64 - t - s) by lia. fold C. lia.
    + rewrite Hm. rewrite <- (Zplus_mod_idemp_l _ c), Zmult_mod_idemp_l, Zplus_mod_idemp_l. f_equal. rewrite Z.pow_add_r by lia. ring.
  - assert (t = 64) by lia. subst t. change (2 ^ (64 - 64)) with 1 in *. assert (b = 0) by lia. subst b. rewrite Hm. f_equal. f_equal. rewrite W_pow. lia.
Qed.
Lemma remsi_loop_ok : forall ws m shift dd, Forall word ws -> 0 < shift < 64 -> 2 ^ (63 - shift) <= dd < 2 ^ (64 - shift) -> 0 <= m < dd ->
  remsi_loop ws m shift dd = Ok ((m * W ^ Z.of_nat (length ws) + value (rev ws)) mod dd).
Proof.
  induction ws as [|x t IH]; intros m shift dd F Hs Hd Hm; cbn [remsi_loop].
  { cbn [length rev value]. change (Z.of_nat 0) with 0. rewrite Z.pow_0_r, Z.mod_small by lia. f_equal. lia. }
  inversion F; subst. assert (Dd : 0 < dd) by lia.
  rewrite (remsi_word_ok 66 m x 0 shift dd 0 x m); try lia.
  2: { change (64 - 0) with 64. rewrite W_pow. exact H1. } 2: { change (2 ^ 0) with 1. rewrite Z.mod_small; lia. }
  cbn [bind]. rewrite IH; auto. 2: apply Z.mod_pos_bound; lia.
  cbn [length rev]. rewrite value_snoc, rev_length, Wpow_S. f_equal. rewrite <- Zplus_mod_idemp_l, Zmult_mod_idemp_l, Zplus_mod_idemp_l. f_equal. ring.
Qed.
Lemma remsi_ok : forall b y, wfb b -> y <> 0 -> -2305843009213693952 <= y <= 2305843009213693951 -> bignum_remsi b y = Ok (Z.rem (bval b) y).
Proof.
  intros b y (Sg & F & N) Hy Hr. unfold bignum_remsi.
  assert (Ed : uwrap (if y <? 0 then - y else y) = Z.abs y) by (pose proof W_big; destruct (Z.ltb_spec y 0); rewrite uwrap_small; lia). rewrite Ed.
  set (dd := Z.abs y). assert (Hd : 0 < dd <= 2305843009213693952) by lia. rewrite highest_bit_ok by (pose proof W_big; lia).
  pose proof (Z.log2_spec dd ltac:(lia)) as LS. pose proof (Z.log2_nonneg dd) as L0. assert (L1 : Z.log2 dd <= 61). { change 61 with (Z.log2 2305843009213693952). apply Z.log2_le_mono; lia. }
  rewrite remsi_loop_ok; try lia.
  2: now apply Forall_rev.
  2: { replace (63 - (64 - Z.log2 dd - 1)) with (Z.log2 dd) by lia. replace (64 - (64 - Z.log2 dd - 1)) with (Z.succ (Z.log2 dd)) by lia. exact LS. }
  cbn [bind]. rewrite rev_involutive. f_equal. rewrite Z.mul_0_l, Z.add_0_l. pose proof (value_bound _ F) as [V0 _]. pose proof (Z.mod_pos_bound (value (words b)) dd ltac:(lia)) as Mb.
  assert (Sl : slong (value (words b) mod dd) = value (words b) mod dd) by (unfold slong; rewrite Z.mod_small by (pose proof W_big; lia); lia). rewrite Sl.
  unfold bval. rewrite <- (Z.rem_abs_r _ y) by lia. fold dd. destruct Sg as [-> | ->].
  - rewrite Z.mul_1_l, Z.mul_1_r, Z.rem_mod_nonneg by lia. reflexivity.
  - replace (-1 * value (words b)) with (- value (words b)) by lia. rewrite Z.rem_opp_l, Z.rem_mod_nonneg by lia. lia.
Qed.

Lemma quot_sign : forall s x y, (s = 1 \/ s = -1) -> 0 <= x -> y <> 0 -> Z.quot (s * x) y = (s * Z.sgn y) * (x / Z.abs y) /\ Z.rem (s * x) y = s * (x mod Z.abs y).
Proof.
  intros s x y Hs Hx Hy. assert (Q : Z.quot x (Z.abs y) = x / Z.abs y) by (apply Z.quot_div_nonneg; lia). assert (R : Z.rem x (Z.abs y) = x mod Z.abs y) by (apply Z.rem_mod_nonneg; lia).
  destruct Hs as [-> | ->].
  - rewrite !Z.mul_1_l. rewrite <- Q, <- R, Z.rem_abs_r by lia. split; auto. destruct (Z.lt_trichotomy y 0) as [L|[L|L]]; [|lia|].
    + rewrite Z.abs_neq, Z.sgn_neg, Z.quot_opp_r by lia. lia.
    + rewrite Z.abs_eq, Z.sgn_pos by lia. lia.
  - replace (-1 * x) with (- x) by lia. rewrite Z.quot_opp_l, Z.rem_opp_l by lia. rewrite <- Q, <- R, Z.rem_abs_r by lia. split; [|lia]. destruct (Z.lt_trichotomy y 0) as [L|[L|L]]; [|lia|].
    + rewrite Z.abs_neq, Z.sgn_neg, Z.quot_opp_r by lia. lia.
    + rewrite Z.abs_eq, Z.sgn_pos by lia. lia.
Qed.
Lemma divsi_ok : forall b y, wfb b -> nw b < MAX_DIGITS -> y <> 0 -> -9223372036854775807 <= y <= 9223372036854775807 ->
  exists q, bignum_divsi b y = Ok (q, Z.rem (bval b) y) /\ canonical q /\ int_of q = Z.quot (bval b) y.
Proof.
  intros b y Wb Hn Hy Hr. pose proof Wb as (Sg & F & N). unfold bignum_divsi.
  assert (Ed : uwrap (if y <? 0 then - y else y) = Z.abs y) by (pose proof W_big; destruct (Z.ltb_spec y 0); rewrite uwrap_small; lia). rewrite Ed.
  assert (Es : (if y <? 0 then -1 else 1) = Z.sgn y) by (destruct (Z.ltb_spec y 0); lia). rewrite Es.
  pose proof (value_bound _ F) as [V0 _]. unfold bval. destruct (quot_sign (sign b) (value (words b)) y Sg V0 Hy) as [QE RE]. rewrite QE, RE.
  set (dd := Z.abs y) in *. assert (Hd : 0 < dd <= 9223372036854775807) by lia. set (X := value (words b)) in *.
  pose proof (Z.mod_pos_bound X dd ltac:(lia)) as Mb.
  assert (Fin : forall q rr, Forall word q -> q <> [] -> value q = X / dd -> rr = X mod dd ->
    exists q0, Ok (normalize (Big (sign b * Z.sgn y) q), if sign b <? 0 then slong (- slong rr) else slong rr) = Ok (q0, sign b * (X mod dd)) /\ canonical q0 /\ int_of q0 = sign b * Z.sgn y * (X / dd)).
  { intros q rr Fq Nq Vq ->. eexists. assert (Sl : forall z, - 9223372036854775807 <= z <= 9223372036854775807 -> slong z = z) by (intros; unfold slong; rewrite Z.mod_small by (pose proof W_big; assert (W = 2 * 9223372036854775808) by reflexivity; lia); lia).
    split. { f_equal. f_equal. rewrite !Sl by (rewrite ?Sl; lia). destruct Sg as [-> | ->]; [change (1 <? 0) with false|change (-1 <? 0) with true]; cbn match; lia. }
    destruct (wfb_num (Big (sign b * Z.sgn y) q)) as [A B]. { split; [|split]; auto. cbn [sign]. lia. } split; auto. rewrite B. unfold bval. cbn [sign words]. rewrite Vq. reflexivity. }
  destruct (Z.ltb_spec dd HW).
  - destruct (sdiv_ok (words b) dd F N ltac:(lia)) as (q & -> & Fq & Lq & Vq). cbn [bind]. apply Fin; auto. destruct q; [|discriminate]. destruct (words b); [contradiction|discriminate].
  - unfold nw in Hn. rewrite make_bignum_ok by lia. cbn [bind].
    assert (Sd : slong dd = dd) by (unfold slong; rewrite Z.mod_small by (assert (W = 2 * 9223372036854775808) by reflexivity; lia); lia).
    assert (Eb : words (bignum_of_si (slong dd)) = [dd]) by (rewrite Sd; unfold bignum_of_si; rewrite (proj2 (Z.ltb_ge _ _)) by lia; reflexivity). rewrite Eb.
    assert (Vd : value [dd] = dd) by (cbn [value]; lia).
    destruct (gdiv_ok (words b) [dd] (S (length (words b)))) as (q & r & -> & Fq & Fr & Lq & Lr & Vq & Vr); auto.
    { constructor; auto. unfold word. pose proof W_big. lia. } { discriminate. } { cbn [last]. lia. } { rewrite Vd. lia. } { destruct (words b); [contradiction|cbn [length]; lia]. } { cbn [length]. lia. }
    cbn [bind fst snd]. rewrite rd_ok by lia. cbn [bind]. apply Fin; auto.
    + destruct q; discriminate.
    + rewrite Vq, Vd. reflexivity.
    + rewrite Vd in Vr. fold X in Vr. rewrite (nth_value r 0), Vr by auto. change (Z.of_nat 0) with 0. rewrite Z.pow_0_r, Z.div_1_r, Z.mod_small by (pose proof W_big; lia). reflexivity.
Qed.
Lemma divrem_ok : forall bx by_, canonical (Bn bx) -> canonical (Bn by_) -> nw bx < MAX_DIGITS ->
  exists q r, bignum_divrem bx by_ = Ok (q, r) /\ canonical q /\ canonical r /\ int_of q = Z.quot (bval bx) (bval by_) /\ int_of r = Z.rem (bval bx) (bval by_).
Proof.
  intros bx by_ Cx Cy Hn. destruct (canonical_wfb _ Cx) as ((Sx & Fx & Nx) & Lx & Vx). destruct (canonical_wfb _ Cy) as ((Sy & Fy & Ny) & Ly & Vy).
  unfold bignum_divrem. rewrite abscmp_ok by auto. rewrite cmpz_spec. set (X := value (words bx)) in *. set (Y := value (words by_)) in *. unfold bval. fold X Y.
  assert (SY : Z.sgn (sign by_ * Y) = sign by_ /\ Z.abs (sign by_ * Y) = Y) by (destruct Sy as [-> | ->]; lia). destruct SY as [SY AY].
  destruct (quot_sign (sign bx) X (sign by_ * Y) Sx ltac:(lia)) as [QE RE]; [lia|]. rewrite QE, RE, SY, AY.
  destruct (Z.ltb_spec X Y).
  - change (-1 <? 0) with true. cbn match. exists (mkint 0), (Bn bx). rewrite mkint_id by (unfold FIX_MIN, FIX_MAX; lia). rewrite Z.div_small, Z.mod_small by lia. split; auto. split; [cbn; unfold in_fixnum_range; lia|]. split; auto. split; [cbn [int_of]; lia|reflexivity].
  - assert (Ll : (length (words by_) <= length (words bx))%nat). { destruct (Nat.leb_spec (length (words by_)) (length (words bx))); auto. exfalso. pose proof (value_len_lt _ _ Fx Fy Ly H0). fold X Y in H1. lia. }
    replace ((if Y <? X then 1 else 0) <? 0) with false by (destruct (Y <? X); reflexivity). unfold nw in Hn. rewrite make_bignum_ok by lia. cbn [bind].
    destruct (gdiv_ok (words bx) (words by_) (length (words bx) - length (words by_) + 1)) as (q & r & -> & Fq & Fr & Lq & Lr & Vq & Vr); auto.
    { fold Y. pose proof HW_big. assert (HW < 4294967297) by reflexivity. lia. }
    cbn [bind fst snd]. eexists. eexists. split; [reflexivity|].
    destruct (wfb_num (Big (sign bx * sign by_) q)) as [A B]. { split; [|split]; auto. { cbn [sign]. lia. } cbn [words]. intros ->. cbn in Lq. lia. }
    destruct (wfb_num (Big (sign bx) r)) as [C D]. { split; [|split]; auto. cbn [words]. intros ->. discriminate. }
    split; auto. split; auto. rewrite B, D. unfold bval. cbn [sign words]. rewrite Vq, Vr. split; reflexivity.
Qed.
