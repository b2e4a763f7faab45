(** ash. *)
From Coq Require Import List Bool ZArith Lia.
From Verif Require Import Outcome BignumModel IntSpec IntModel BignumProofs BignumProofs2 BignumProofs5 BignumProofs6 IntProofs IntProofs2.
Import ListNotations.
Local Open Scope Z_scope.
Ltac Zify.zify_post_hook ::= idtac.

Lemma pow_W : forall k, 0 <= k -> W ^ k = 2 ^ (64 * k). Proof. intros. rewrite Z.pow_mul_r by lia. reflexivity. Qed.
Lemma ash_left_ok : forall b cnt, wfb b -> 0 < cnt -> nw b + (cnt + 63) / 64 <= MAX_DIGITS -> returns (bignum_ash_left b cnt) (bval b * 2 ^ cnt).
Proof.
  intros b cnt (S & F & N) Hc L. unfold bignum_ash_left, nw in *. rewrite Z.quot_div_nonneg by lia. assert (Hk : 0 <= (cnt + 63) / 64) by (apply Z.div_pos; lia). set (k := (cnt + 63) / 64) in *.
  rewrite make_bignum_ok by lia. cbn [bind]. assert (Hl : (0 < length (words b))%nat) by (destruct (words b); [contradiction|cbn; lia]).
  assert (Ck : cnt <= 64 * k) by (unfold k; pose proof (Z.div_mod (cnt + 63) 64 ltac:(lia)); pose proof (Z.mod_pos_bound (cnt + 63) 64 ltac:(lia)); lia).
  assert (Dk : cnt / 64 <= k). { unfold k. apply Z.div_le_mono; lia. }
  destruct (lshift_ok (length (words b) + Z.to_nat k) (words b) cnt F N ltac:(lia)) as (r & -> & Lr & Fr & Vr). { lia. } cbn [bind].
  apply ret_norm. { split; [|split]; auto. cbn [words]. destruct r; [cbn [length] in Lr; lia|discriminate]. }
  unfold bval. cbn [sign words]. rewrite Vr. rewrite Z.mod_small. { lia. } pose proof (value_bound _ F) as B. assert (P2 : 0 < 2 ^ cnt) by (apply Z.pow_pos_nonneg; lia). split. { apply Z.mul_nonneg_nonneg; lia. }
  rewrite Nat2Z.inj_add, Z2Nat.id, Z.pow_add_r by lia. assert (2 ^ cnt <= W ^ k) by (rewrite pow_W by lia; apply Z.pow_le_mono_r; lia).
  assert (value (words b) * 2 ^ cnt < W ^ Z.of_nat (length (words b)) * 2 ^ cnt) by (apply Z.mul_lt_mono_pos_r; lia). assert (W ^ Z.of_nat (length (words b)) * 2 ^ cnt <= W ^ Z.of_nat (length (words b)) * W ^ k) by (apply Z.mul_le_mono_nonneg_l; [pose proof (Wpow_pos (length (words b)))|]; lia). lia.
Qed.
(** the shifts Scm_Ash gets wrong by returning an unnormalized bignum *)
Definition ash_exception (ix cnt : Z) : Prop := cnt = 0 /\ (ix = 2305843009213693951 \/ ix = -2305843009213693952 \/ ix = -2305843009213693951).
Lemma fix_ash_left_ok : forall ix cnt, canonical (Fix ix) -> 0 <= cnt < 268435456 -> ~ ash_exception ix cnt -> returns (fix_ash_left ix cnt) (ix * 2 ^ cnt).
Proof.
  intros ix cnt C Hc NE. unfold fix_ash_left. rewrite (proj2 (Z.leb_gt _ _)) by lia. pose proof (fix_big ix C) as (Wb & Vb & Nb & _). pose proof C as C'. apply can_fix in C'. unfold ash_exception in NE.
  rewrite Z.shiftr_div_pow2, Z.shiftl_mul_pow2 by lia. assert (P2 : 0 < 2 ^ cnt) by (apply Z.pow_pos_nonneg; lia).
  replace (if ix <? 0 then - ix <? FIX_MAX / 2 ^ cnt else ix <? FIX_MAX / 2 ^ cnt) with (Z.abs ix <? FIX_MAX / 2 ^ cnt) by (destruct (Z.ltb_spec ix 0); f_equal; lia).
  destruct (Z.ltb_spec (Z.abs ix) (FIX_MAX / 2 ^ cnt)) as [L|L]; [rewrite andb_true_r|rewrite andb_false_r].
  - assert (B : Z.abs ix * 2 ^ cnt <= FIX_MAX). { assert (Z.abs ix * 2 ^ cnt <= FIX_MAX / 2 ^ cnt * 2 ^ cnt) by (apply Z.mul_le_mono_nonneg_r; lia). pose proof (Z.mul_div_le FIX_MAX (2 ^ cnt) P2). lia. }
    assert (B2 : Z.abs (ix * 2 ^ cnt) <= FIX_MAX) by (rewrite Z.abs_mul, (Z.abs_eq (2 ^ cnt)) by lia; lia). unfold FIX_MAX in B2.
    destruct (cnt <? 61) eqn:E1.
    + rewrite sl_ok by (unfold LONG_MIN, LONG_MAX; lia). cbn [bind]. destruct (make_integer_ok (ix * 2 ^ cnt)). { unfold LONG_MIN, LONG_MAX; lia. } now apply ret_ok.
    + apply Z.ltb_ge in E1. rewrite (proj2 (Z.eqb_neq _ _)) by lia. rewrite <- Vb at 2. apply ash_left_ok; auto; [lia|]. rewrite Nb. assert ((cnt + 63) / 64 <= 4194305) by (apply Z.div_le_upper_bound; lia). unfold MAX_DIGITS. lia.
  - destruct (Z.eqb_spec cnt 0) as [->|N0].
    + exfalso. change (2 ^ 0) with 1 in L. rewrite Z.div_1_r in L. unfold FIX_MAX in L. lia.
    + rewrite <- Vb at 2. apply ash_left_ok; auto; [lia|]. rewrite Nb. assert ((cnt + 63) / 64 <= 4194305) by (apply Z.div_le_upper_bound; lia). unfold MAX_DIGITS. lia.
Qed.
Lemma quot_neg_floor : forall x m, 0 < m -> x < 0 -> Z.quot (x + 1) m - 1 = x / m.
Proof.
  intros x m Hm Hx. set (y := - x - 1). replace (x + 1) with (- y) by (unfold y; lia). replace x with (- y - 1) by (unfold y; lia). assert (0 <= y) by (unfold y; lia). clearbody y.
  rewrite Z.quot_opp_l, Z.quot_div_nonneg by lia. pose proof (Z.div_mod y m ltac:(lia)). pose proof (Z.mod_pos_bound y m ltac:(lia)). apply Z.div_unique with (m - 1 - y mod m); [left; lia|]. lia.
Qed.
Lemma quot_64 : forall cnt, cnt < 0 -> Z.quot cnt 64 = - ((- cnt) / 64).
Proof. intros. replace cnt with (- (- cnt)) at 1 by lia. rewrite Z.quot_opp_l, Z.quot_div_nonneg by lia. reflexivity. Qed.
Lemma div_small_neg : forall x m, 0 < m -> - m <= x < 0 -> x / m = -1.
Proof. intros. symmetry. apply Z.div_unique with (x + m); lia. Qed.

Lemma bignum_ash_ok : forall b cnt, canonical (Bn b) -> -2147483648 < cnt < 268435456 -> nw b + 1 < MAX_DIGITS -> (0 < cnt -> nw b + (cnt + 63) / 64 <= MAX_DIGITS) ->
  (cnt <= -268435456 -> 0 <= bval b) -> ~ (bval b = -2305843009213693953 /\ cnt = -61) ->
  returns (bignum_ash b cnt) (Z.shiftl (bval b) cnt).
Proof.
  intros b cnt C Hc L1 L2 Hn NE. pose proof (canonical_wfb' _ C) as Wb. pose proof Wb as (S & F & N). destruct (big_val b C) as (A1 & A2 & _ & V & V2). unfold bignum_ash.
  destruct (Z.eqb_spec cnt 0) as [->|N0]. { rewrite Z.shiftl_0_r. now apply ret_ok. }
  destruct (Z.ltb_spec 0 cnt). { rewrite Z.shiftl_mul_pow2 by lia. apply ash_left_ok; auto. }
  rewrite quot_64 by lia. set (n := - cnt) in *. assert (Hn0 : 0 < n) by lia. replace cnt with (- n) in * by lia. rewrite Z.shiftl_opp_r, Z.shiftr_div_pow2 by lia.
  assert (P2 : 0 < 2 ^ n) by (apply Z.pow_pos_nonneg; lia). pose proof (value_bound _ F) as B. assert (D0 : 0 <= n / 64) by (apply Z.div_pos; lia).
  destruct (Z.ltb_spec (Z.of_nat (length (words b)) + - (n / 64)) 1) as [Lr|Lr].
  { assert (Sm : value (words b) < 2 ^ n). { eapply Z.lt_le_trans; [apply B|]. rewrite pow_W by lia. apply Z.pow_le_mono_r; [lia|]. pose proof (Z.mul_div_le n 64 ltac:(lia)). lia. }
    destruct S as [S|S]; rewrite S in *; [change (1 <? 0) with false|change (-1 <? 0) with true]; cbn match; apply ret_mkint; try lia; symmetry.
    - apply Z.div_small. lia.
    - apply div_small_neg; lia. }
  destruct S as [S|S]; rewrite S in *; [change (1 <? 0) with false|change (-1 <? 0) with true]; cbn match.
  - assert (Hl : Z.of_nat (length (words b)) < MAX_DIGITS) by (unfold nw in L1; lia). rewrite make_bignum_ok by lia. cbn [bind].
    destruct (rshift_ok false (repeat 0 (Z.to_nat (Z.of_nat (length (words b)) + - (n / 64)))) (words b) n F ltac:(lia)) as (r & -> & Fr & Vr & Lr2). { lia. } { discriminate. } { rewrite repeat_length. lia. }
    cbn [bind]. apply ret_norm. { split; [|split]; cbn [sign words]; auto. destruct r; [cbn [length] in Lr2; lia|discriminate]. } unfold bval. cbn [sign words]. rewrite S, Vr. rewrite !Z.mul_1_l. reflexivity.
  - assert (Hn2 : n < 268435456) by lia. rewrite mkint_id by (unfold FIX_MIN, FIX_MAX; lia).
    destruct (num_add_ok (Bn b) (Fix 1) C ltac:(apply can_fix; lia) ltac:(unfold nw in L1; cbn [nwords]; lia) ltac:(reflexivity)) as (a & -> & Ca & Va). cbn [bind]. change (int_of (Bn b)) with (bval b) in Va. cbn [int_of] in Va.
    destruct (fix_ash_left_ok 1 n ltac:(apply can_fix; lia) ltac:(lia) ltac:(unfold ash_exception; lia)) as (p & -> & Cp & Vp). cbn [bind]. rewrite Z.mul_1_l in Vp.
    assert (La : nwords a <= nwords (Bn b)). { apply nwords_mono; auto. change (int_of (Bn b)) with (bval b). lia. } cbn [nwords] in La. unfold nw in L1.
    destruct (num_quotient_ok a p Ca Cp ltac:(lia) ltac:(lia)) as (q & r & -> & Cq & _ & Vq & _).
    { unfold quot_exception. rewrite Va, Vp. intros [E1 [E2|E2]]; [lia|]. apply NE. split; [lia|]. change 2305843009213693952 with (2 ^ 61) in E2. apply Z.pow_inj_r in E2; lia. }
    cbn [bind fst]. rewrite mkint_id by (unfold FIX_MIN, FIX_MAX; lia).
    assert (Lq : nwords q <= nwords (Bn b)). { apply nwords_mono; auto. change (int_of (Bn b)) with (bval b). rewrite Vq, Va, Vp. rewrite <- Z.quot_abs by lia. rewrite (Z.abs_eq (2 ^ n)) by lia. rewrite Z.quot_div_nonneg by lia. transitivity (Z.abs (bval b + 1)); [|lia]. apply Z.div_le_upper_bound; [lia|]. assert (1 * Z.abs (bval b + 1) <= 2 ^ n * Z.abs (bval b + 1)) by (apply Z.mul_le_mono_nonneg_r; lia). lia. } cbn [nwords] in Lq.
    destruct (num_add_ok q (Fix (-1)) Cq ltac:(apply can_fix; lia) ltac:(lia) ltac:(reflexivity)) as (z & -> & Cz & Vz). apply ret_ok; auto. rewrite Vz. cbn [int_of]. rewrite Vq, Va, Vp, <- (quot_neg_floor _ (2 ^ n)) by lia. lia.
Qed.
Lemma num_ash_ok : forall x cnt, canonical x -> cnt < 268435456 -> nwords x + 1 < MAX_DIGITS -> (0 < cnt -> nwords x + (cnt + 63) / 64 <= MAX_DIGITS) -> ~ ash_exception (int_of x) cnt ->
  (x <> Fix (int_of x) -> -2147483648 < cnt /\ (cnt <= -268435456 -> 0 <= int_of x) /\ ~ (int_of x = -2305843009213693953 /\ cnt = -61)) ->
  returns (num_ash x cnt) (Z.shiftl (int_of x) cnt).
Proof.
  intros x cnt C Hc L1 L2 NE Hb. unfold num_ash. rewrite (proj2 (Z.leb_gt _ _)) by lia. destruct x as [ix|b].
  - clear Hb. cbn [int_of] in *. pose proof C as C'. apply can_fix in C'.
    assert (Mk : forall z, Z.abs z <= 2305843009213693952 -> returns (Ok (make_integer z)) z). { intros z Hz. destruct (make_integer_ok z); [unfold LONG_MIN, LONG_MAX; lia|]. now apply ret_ok. }
    destruct (Z.leb_spec cnt (-64)) as [L|L].
    { replace cnt with (- (- cnt)) by lia. rewrite Z.shiftl_opp_r, Z.shiftr_div_pow2 by lia. assert (2 ^ 64 <= 2 ^ (- cnt)) by (apply Z.pow_le_mono_r; lia). change (2 ^ 64) with W in *. pose proof W_big.
      destruct (Z.ltb_spec ix 0); [rewrite div_small_neg by lia|rewrite Z.div_small by lia]; apply Mk; lia. }
    destruct (Z.ltb_spec cnt 0) as [L0|L0].
    { replace cnt with (- (- cnt)) at 3 by lia. rewrite Z.shiftl_opp_r. assert (P2 : 0 < 2 ^ (- cnt)) by (apply Z.pow_pos_nonneg; lia).
      assert (B : Z.abs (Z.shiftr ix (- cnt)) <= Z.abs ix). { rewrite Z.shiftr_div_pow2 by lia. destruct (Z.ltb_spec ix 0).
        - rewrite <- quot_neg_floor by lia. replace (ix + 1) with (- (- ix - 1)) by lia. rewrite Z.quot_opp_l, Z.quot_div_nonneg by lia. assert (0 <= (- ix - 1) / 2 ^ (- cnt)) by (apply Z.div_pos; lia). assert ((- ix - 1) / 2 ^ (- cnt) <= - ix - 1); [|lia]. apply Z.div_le_upper_bound; [lia|]. assert (1 * (- ix - 1) <= 2 ^ (- cnt) * (- ix - 1)) by (apply Z.mul_le_mono_nonneg_r; lia). lia.
        - assert (0 <= ix / 2 ^ (- cnt)) by (apply Z.div_pos; lia). rewrite !Z.abs_eq by lia. apply Z.div_le_upper_bound; [lia|]. assert (1 * ix <= 2 ^ (- cnt) * ix) by (apply Z.mul_le_mono_nonneg_r; lia). lia. }
      destruct (Z.ltb_spec ix 0).
      - replace (Z.lnot (Z.shiftr (Z.lnot ix) (- cnt))) with (Z.shiftr ix (- cnt)). { apply Mk. lia. } apply Z.bits_inj'. intros m Hm. rewrite Z.lnot_spec, !Z.shiftr_spec, Z.lnot_spec by lia. now rewrite negb_involutive.
      - apply Mk. lia. }
    rewrite Z.shiftl_mul_pow2 by lia. apply fix_ash_left_ok; auto; lia.
  - destruct Hb as (H1 & H2 & H3); [discriminate|]. change (int_of (Bn b)) with (bval b) in *. cbn [nwords] in *. assert (Sc : sint cnt = cnt) by (unfold sint; rewrite Z.mod_small by lia; lia). rewrite Sc. apply bignum_ash_ok; auto; lia.
Qed.
