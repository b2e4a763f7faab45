(** Bitwise operations on exact integers, integer-length, expt, exact-integer-sqrt. *)
From Coq Require Import List Bool ZArith Lia.
From Verif Require Import Outcome BignumModel IntSpec IntModel BignumProofs BignumProofs2 BignumProofs5 BignumProofs6 IntProofs IntProofs2 IntProofs4 IntProofs5.
Import ListNotations.
Local Open Scope Z_scope.
Ltac Zify.zify_post_hook ::= idtac.

Definition big_of (x : num) : bignum := match x with Fix v => bignum_of_si v | Bn b => b end.
Lemma big_of_ok : forall x, canonical x -> okb (big_of x) /\ bval (big_of x) = int_of x /\ nw (big_of x) = nwords x.
Proof.
  intros [v|b] C; cbn [big_of].
  - destruct (fix_big v C) as (Wb & V & N & _). cbn [int_of nwords]. split; auto. split; auto. intros S. unfold bignum_of_si in *. destruct (Z.ltb_spec v 0); cbn [sign words] in *; [|discriminate]. cbn [value]. unfold bval in V. cbn [sign words value] in V. lia.
  - destruct (big_val b C) as (_ & _ & _ & _ & V). split; [split|]; auto using canonical_wfb'. lia.
Qed.
Lemma land_small_nonneg : forall a b, 0 <= a < W -> 0 <= b -> Z.land a (b mod W) = Z.land a b.
Proof. intros a b Ha Hb. rewrite <- W_pow in *. symmetry. apply land_low; lia. Qed.
Lemma max_words : forall x y, canonical x -> canonical y -> 64 * Z.max (nwords x) (nwords y) >= 64.
Proof. intros x y Cx Cy. pose proof (nwords_pos x Cx). lia. Qed.
Lemma int_range : forall x m, canonical x -> nwords x <= m -> - 2 ^ (64 * m) <= int_of x < 2 ^ (64 * m).
Proof. intros x m C L. pose proof (nwords_upper x C) as U. pose proof (nwords_pos x C). rewrite pow_W in U by lia. assert (2 ^ (64 * nwords x) <= 2 ^ (64 * m)) by (apply Z.pow_le_mono_r; lia). lia. Qed.
Lemma fix_range61 : forall v, canonical (Fix v) <-> - 2 ^ 61 <= v < 2 ^ 61. Proof. intros. rewrite can_fix. change (2 ^ 61) with 2305843009213693952. lia. Qed.

Lemma num_logand_ok : forall x y, canonical x -> canonical y -> Z.land (int_of x) (int_of y) <> - 2 ^ (64 * Z.max (nwords x) (nwords y)) ->
  returns (num_logand x y) (Z.land (int_of x) (int_of y)).
Proof.
  intros x y Cx Cy NE. destruct (big_of_ok x Cx) as (Ox & Vx & Nx). destruct (big_of_ok y Cy) as (Oy & Vy & Ny).
  assert (G : returns (Ok (bignum_logand (big_of x) (big_of y))) (Z.land (int_of x) (int_of y))). { rewrite <- Vx, <- Vy in *. rewrite <- Nx, <- Ny in NE. apply bignum_logand_ok; auto. }
  assert (K : forall v b, canonical (Fix v) -> canonical (Bn b) -> 0 <= v -> 0 <= sign b -> returns (do w <- rd (words b) 0; Ok (make_integer (slong (Z.land v w)))) (Z.land v (bval b))).
  { intros v b Cv Cb Pv Pb. apply can_fix in Cv. destruct (big_val b Cb) as (_ & _ & S & V & V2). destruct (canonical_wfb b Cb) as ((_ & F & N) & _). assert (Sb : sign b = 1) by lia. rewrite rd_ok by (apply nonnil_len; auto). cbn [bind]. rewrite nth_value by auto. change (Z.of_nat 0) with 0. rewrite Z.pow_0_r, Z.div_1_r.
    rewrite land_small_nonneg by (pose proof W_big; lia). rewrite V, Sb, Z.mul_1_l. set (z := Z.land v (value (words b))). assert (Hz : 0 <= z <= v). { unfold z. split; [apply Z.land_nonneg; lia|]. rewrite <- (Z.lor_ldiff_and v (value (words b))) at 2. rewrite Z.lor_comm. rewrite Z.lor_comm. apply lor_ge. left. apply Z.ldiff_nonneg. lia. }
    assert (Sz : slong z = z) by (unfold slong; rewrite Z.mod_small by (pose proof W_big; lia); lia). rewrite Sz. destruct (make_integer_ok z); [unfold LONG_MIN, LONG_MAX; lia|]. now apply ret_ok. }
  destruct x as [a|a], y as [b|b]; cbn [num_logand big_of int_of] in *.
  - apply fix_range61 in Cx. apply fix_range61 in Cy. pose proof (range_land a b 61 ltac:(lia) Cx Cy) as R. change (2 ^ 61) with 2305843009213693952 in R. apply ret_mkint; lia.
  - destruct (Z.leb_spec 0 a), (Z.leb_spec 0 (sign b)); cbn [andb]; auto. apply K; auto.
  - destruct (Z.leb_spec 0 b), (Z.leb_spec 0 (sign a)); cbn [andb]; auto. rewrite Z.land_comm. apply K; auto.
  - auto.
Qed.
Lemma num_logior_ok : forall x y, canonical x -> canonical y -> returns (num_logior x y) (Z.lor (int_of x) (int_of y)).
Proof.
  intros x y Cx Cy. destruct (big_of_ok x Cx) as (Ox & Vx & Nx). destruct (big_of_ok y Cy) as (Oy & Vy & Ny).
  assert (G : returns (Ok (bignum_logior (big_of x) (big_of y))) (Z.lor (int_of x) (int_of y))). { rewrite <- Vx, <- Vy. apply bignum_logior_ok; auto. }
  destruct x as [a|a], y as [b|b]; cbn [num_logior big_of int_of] in *; auto.
  apply fix_range61 in Cx. apply fix_range61 in Cy. pose proof (range_lor a b 61 ltac:(lia) Cx Cy) as R. change (2 ^ 61) with 2305843009213693952 in R. apply ret_mkint; lia.
Qed.
Lemma num_lognot_ok : forall x, canonical x -> nwords x < MAX_DIGITS -> returns (num_lognot x) (Z.lnot (int_of x)).
Proof.
  intros [v|b] C L; cbn [num_lognot].
  - apply can_fix in C. cbn [int_of]. assert (Z.lnot v = - v - 1) by (unfold Z.lnot; lia). apply ret_mkint; lia.
  - destruct (bignum_add_si_ok b 1 C L ltac:(lia)) as (r & -> & Cr & Vr). cbn [bind]. destruct (num_negate_ok r Cr) as (A & B). apply ret_ok; auto. rewrite B, Vr. change (int_of (Bn b)) with (bval b). unfold Z.lnot. lia.
Qed.
Lemma xor_and : forall x y, Z.land (Z.lor x y) (Z.lnot (Z.land x y)) = Z.lxor x y.
Proof. intros. apply Z.bits_inj'. intros i Hi. rewrite Z.land_spec, Z.lor_spec, Z.lnot_spec, Z.land_spec, Z.lxor_spec by auto. now destruct (Z.testbit x i), (Z.testbit y i). Qed.
Lemma num_logxor_ok : forall x y, canonical x -> canonical y -> nwords x + 1 < MAX_DIGITS -> nwords y + 1 < MAX_DIGITS ->
  (forall k, 1 <= k -> Z.land (int_of x) (int_of y) <> - 2 ^ (64 * k) /\ Z.lxor (int_of x) (int_of y) <> - 2 ^ (64 * k)) ->
  returns (num_logxor x y) (Z.lxor (int_of x) (int_of y)).
Proof.
  intros x y Cx Cy Lx Ly NE. destruct (big_of_ok x Cx) as (Ox & Vx & Nx). destruct (big_of_ok y Cy) as (Oy & Vy & Ny). pose proof (nwords_pos x Cx). pose proof (nwords_pos y Cy).
  assert (G : returns (bignum_logxor (big_of x) (big_of y)) (Z.lxor (int_of x) (int_of y))).
  { unfold bignum_logxor. destruct (bignum_logand_ok (big_of x) (big_of y) Ox Oy) as (a & Ea & Ca & Va). { intros _ _. rewrite Vx, Vy, Nx, Ny. apply NE. lia. } destruct (bignum_logior_ok (big_of x) (big_of y) Ox Oy) as (o & Eo & Co & Vo). injection Ea as ->. injection Eo as ->.
    rewrite Vx, Vy in *. set (m := Z.max (nwords x) (nwords y)) in *. pose proof (int_range x m Cx ltac:(lia)) as Rx. pose proof (int_range y m Cy ltac:(lia)) as Ry. pose proof (range_land _ _ (64 * m) ltac:(lia) Rx Ry) as Ra.
    assert (La : nwords a <= m + 1). { apply nwords_le; auto; [lia|]. rewrite Va, pow_W by lia. assert (2 ^ (64 * m) < 2 ^ (64 * (m + 1))) by (apply Z.pow_lt_mono_r; lia). lia. }
    destruct (num_lognot_ok a Ca ltac:(lia)) as (n & -> & Cn & Vn). cbn [bind].
    rewrite <- xor_and, <- Vo, <- Va, <- Vn. apply num_logand_ok; auto. rewrite Vo, Vn, Va, xor_and. apply NE. pose proof (nwords_pos o Co). lia. }
  destruct x as [a|a], y as [b|b]; cbn [num_logxor big_of int_of] in *; auto.
  apply fix_range61 in Cx. apply fix_range61 in Cy. pose proof (range_lxor a b 61 ltac:(lia) Cx Cy) as R. change (2 ^ 61) with 2305843009213693952 in R. apply ret_mkint; lia.
Qed.

(** integer-length *)
Definition bits_needed (x n : Z) : Prop := 0 <= n /\ - 2 ^ n <= x < 2 ^ n /\ forall m, 0 <= m < n -> ~ (- 2 ^ m <= x < 2 ^ m).
Lemma bits_needed_pos : forall x, 0 < x -> bits_needed x (Z.log2 x + 1).
Proof.
  intros x H. pose proof (Z.log2_spec x H) as L. pose proof (Z.log2_nonneg x). unfold bits_needed. rewrite <- Z.add_1_r in L. split; [lia|]. split; [lia|]. intros m Hm R. assert (2 ^ m <= 2 ^ Z.log2 x) by (apply Z.pow_le_mono_r; lia). lia.
Qed.
Lemma bits_needed_0 : bits_needed 0 0. Proof. unfold bits_needed. change (2 ^ 0) with 1. split; [lia|]. split; [lia|]. intros m Hm. lia. Qed.
Lemma bits_needed_neg : forall x n, bits_needed (- x - 1) n -> bits_needed x n.
Proof. intros x n (A & B & C). split; auto. split; [lia|]. intros m Hm R. apply (C m Hm). lia. Qed.
Lemma bits_highest1_ok : forall ws, Forall word ws -> ws <> [] -> last ws 0 <> 0 -> bits_highest1 (length ws) (rev ws) = Z.log2 (value ws).
Proof.
  intros ws F N L. destruct (value_last ws F N) as (l & Hl & V). rewrite V. assert (E : ws = removelast ws ++ [last ws 0]) by (apply app_removelast_last; auto). set (w := last ws 0) in *.
  assert (Ww : word w). { rewrite E in F. apply Forall_app in F. destruct F as [_ F]. now inversion F. } unfold word in Ww.
  rewrite E at 2. rewrite rev_app_distr. cbn [rev app]. pose proof (nonnil_len _ N) as Ln. destruct (length ws) as [|n] eqn:El; [lia|]. cbn [bits_highest1]. rewrite (proj2 (Z.eqb_neq _ _)) by auto. rewrite highest_bit_ok by lia.
  replace (S n - 1)%nat with n in * by lia. rewrite pow_W in * by lia. pose proof (Z.log2_spec w ltac:(lia)) as [A B]. pose proof (Z.log2_nonneg w). symmetry. apply Z.log2_unique; [lia|]. rewrite (Z.mul_comm (Z.of_nat n)). rewrite <- Z.add_succ_l. rewrite !Z.pow_add_r by lia. assert (P2 : 0 < 2 ^ (64 * Z.of_nat n)) by (apply Z.pow_pos_nonneg; lia).
  set (p := 2 ^ (64 * Z.of_nat n)) in *. rewrite (Z.mul_comm p w). split.
  - assert (2 ^ Z.log2 w * p <= w * p) by (apply Z.mul_le_mono_nonneg_r; lia). lia.
  - assert ((w + 1) * p <= 2 ^ Z.succ (Z.log2 w) * p) by (apply Z.mul_le_mono_nonneg_r; lia). lia.
Qed.
Lemma integer_length_ok : forall x, canonical x -> nwords x < MAX_DIGITS -> exists n, integer_length x = Ok n /\ bits_needed (int_of x) n.
Proof.
  intros [v|b] C L; cbn [integer_length].
  - apply can_fix in C. pose proof W_big. assert (K : forall u, 0 <= u <= 2305843009213693951 -> bits_needed u (bits_highest1 1 [u] + 1)).
    { intros u Hu. cbn [bits_highest1]. destruct (Z.eqb_spec u 0) as [->|N]; [apply bits_needed_0|]. rewrite highest_bit_ok by lia. change (Z.of_nat 0) with 0. rewrite Z.mul_0_l, Z.add_0_r. apply bits_needed_pos. lia. }
    cbn [int_of]. destruct (Z.leb_spec 0 v). { eexists. split; [reflexivity|]. apply K. lia. }
    eexists. split; [reflexivity|]. apply bits_needed_neg. replace (- v - 1) with (Z.lnot v) by (unfold Z.lnot; lia). apply K. unfold Z.lnot. lia.
  - destruct (big_val b C) as (A1 & A2 & S & V & V2). pose proof (canonical_wfb b C) as ((_ & F & N) & Ll & _).
    destruct S as [S|S]; rewrite S; [change (1 <? 0) with false|change (-1 <? 0) with true]; cbn match.
    + cbn [bind]. eexists. split; [reflexivity|]. rewrite bits_highest1_ok by auto. change (int_of (Bn b)) with (bval b). rewrite V, S, Z.mul_1_l. apply bits_needed_pos. lia.
    + rewrite mkint_id by (unfold FIX_MIN, FIX_MAX; lia). destruct (num_add_ok (Bn b) (Fix 1) C ltac:(apply can_fix; lia) L ltac:(reflexivity)) as (m & -> & Cm & Vm). cbn [bind]. change (int_of (Bn b)) with (bval b) in *. cbn [int_of] in Vm. destruct m as [u|c].
      * eexists. split; [reflexivity|]. cbn [int_of] in Vm. apply can_fix in Cm. assert (E : bval b = -2305843009213693953) by (rewrite V, S in *; lia). rewrite E. unfold bits_needed. change (61 + 1) with 62. split; [lia|]. split. { change (2 ^ 62) with 4611686018427387904. lia. } intros k Hk R. assert (2 ^ k <= 2 ^ 61) by (apply Z.pow_le_mono_r; lia). change (2 ^ 61) with 2305843009213693952 in *. lia.
      * destruct (big_val c Cm) as (A1' & A2' & S' & V' & V2'). pose proof (canonical_wfb c Cm) as ((_ & F' & N') & Ll' & _). eexists. split; [reflexivity|]. rewrite bits_highest1_ok by auto. apply bits_needed_neg. change (int_of (Bn c)) with (bval c) in Vm. assert (E : value (words c) = - bval b - 1). { rewrite V, S in *. destruct S' as [S'|S']; rewrite S' in V'; lia. } rewrite E. apply bits_needed_pos. lia.
Qed.

(** expt *)
Definition LIM : Z := W ^ (MAX_DIGITS - 1).
Lemma LIM_eq : LIM = W ^ (MAX_DIGITS - 1). Proof. reflexivity. Qed.
Opaque LIM.
Lemma nwords_mul_bound : forall x y T, canonical x -> canonical y -> int_of x <> 0 -> int_of y <> 0 -> Z.abs (int_of x * int_of y) <= T -> T < LIM -> nwords x + nwords y <= MAX_DIGITS.
Proof.
  intros x y T Cx Cy Nx Ny B L. rewrite LIM_eq in L. destruct (Z.leb_spec (nwords x + nwords y) MAX_DIGITS); auto. exfalso.
  assert (Lo : forall z, canonical z -> int_of z <> 0 -> W ^ (nwords z - 1) <= Z.abs (int_of z)).
  { intros z Cz Nz. destruct (nwords_lower z Cz) as [_ [E|E]]; auto. { intros ->. apply Nz. reflexivity. } rewrite E. change (1 - 1) with 0. rewrite Z.pow_0_r. lia. }
  pose proof (Lo x Cx Nx). pose proof (Lo y Cy Ny). pose proof (nwords_pos x Cx). pose proof (nwords_pos y Cy). rewrite Z.abs_mul in B.
  assert (W ^ (nwords x - 1) * W ^ (nwords y - 1) <= Z.abs (int_of x) * Z.abs (int_of y)) by (apply Z.mul_le_mono_nonneg; auto; apply Z.pow_nonneg; pose proof W_pos; lia).
  rewrite <- Z.pow_add_r in * by lia. assert (W ^ (MAX_DIGITS - 1) <= W ^ (nwords x - 1 + (nwords y - 1))) by (apply Z.pow_le_mono_r; [pose proof W_pos|]; lia). lia.
Qed.
Lemma pow_abs_ge : forall x k, x <> 0 -> 0 <= k -> 1 <= Z.abs (x ^ k).
Proof. intros x k N K. assert (x ^ k <> 0) by (apply Z.pow_nonzero; lia). lia. Qed.
Lemma abs_mul_ge : forall a b, b <> 0 -> Z.abs a <= Z.abs (a * b).
Proof. intros a b N. rewrite Z.abs_mul. assert (Z.abs a * 1 <= Z.abs a * Z.abs b) by (apply Z.mul_le_mono_nonneg_l; lia). lia. Qed.
Lemma expt_loop_ok : forall k fuel r x iy, canonical r -> canonical x -> int_of r <> 0 -> int_of x <> 0 -> 0 <= iy < 2 ^ Z.of_nat k -> (k + 1 <= fuel)%nat ->
  Z.abs (int_of r * int_of x ^ iy) < LIM -> returns (expt_loop fuel r x iy) (int_of r * int_of x ^ iy).
Proof.
  induction k; intros fuel r x iy Cr Cx Nr Nx Hy Hf B.
  - change (2 ^ Z.of_nat 0) with 1 in Hy. assert (iy = 0) by lia. subst. destruct fuel; [lia|]. cbn [expt_loop]. rewrite Z.pow_0_r, Z.mul_1_r. now apply ret_ok.
  - rewrite Nat2Z.inj_succ, Z.pow_succ_r in Hy by lia. destruct fuel as [|fuel]; [lia|]. cbn [expt_loop].
    destruct (Z.eqb_spec iy 0) as [->|N0]. { rewrite Z.pow_0_r, Z.mul_1_r. now apply ret_ok. }
    destruct (Z.eqb_spec iy 1) as [->|N1]. { rewrite Z.pow_1_r in *. apply num_mul_ok; auto. eapply nwords_mul_bound; eauto. lia. }
    set (T := Z.abs (int_of r * int_of x ^ iy)) in *. rewrite Z.shiftr_div_pow2 by lia. change (2 ^ 1) with 2.
    pose proof (Z.div_mod iy 2 ltac:(lia)) as D. assert (Od : iy mod 2 = if Z.odd iy then 1 else 0) by (rewrite Zmod_odd; reflexivity). rewrite Od in D. set (h := iy / 2) in *. assert (Hh : 1 <= h) by (destruct (Z.odd iy); lia).
    assert (Pw : int_of x ^ iy = (int_of x * int_of x) ^ h * (if Z.odd iy then int_of x else 1)). { rewrite D at 1. rewrite Z.pow_add_r by (destruct (Z.odd iy); lia). rewrite Z.pow_mul_r by lia. rewrite Z.pow_2_r. destruct (Z.odd iy); [now rewrite Z.pow_1_r|now rewrite Z.pow_0_r]. }
    assert (Nh : (int_of x * int_of x) ^ h <> 0) by (apply Z.pow_nonzero; [lia|]; nia).
    assert (R : exists r1, (if Z.odd iy then num_mul r x else Ok r) = Ok r1 /\ canonical r1 /\ int_of r1 = int_of r * (if Z.odd iy then int_of x else 1)).
    { destruct (Z.odd iy). 2: { exists r. rewrite Z.mul_1_r. auto. } destruct (num_mul_ok r x Cr Cx) as (r1 & -> & C1 & V1); [|eauto]. apply nwords_mul_bound with T; auto. unfold T. rewrite Pw. rewrite (Z.mul_comm (_ ^ h)), Z.mul_assoc. now apply abs_mul_ge. }
    destruct R as (r1 & -> & C1 & V1). cbn [bind].
    assert (Sq : exists x1, num_mul x x = Ok x1 /\ canonical x1 /\ int_of x1 = int_of x * int_of x).
    { destruct (num_mul_ok x x Cx Cx) as (x1 & -> & Cx1 & Vx1); [|eauto]. apply nwords_mul_bound with T; auto. unfold T. rewrite Pw. replace h with (1 + (h - 1)) by lia. rewrite Z.pow_add_r, Z.pow_1_r by lia. assert ((int_of x * int_of x) ^ (h - 1) <> 0) by (apply Z.pow_nonzero; [lia|]; nia).
      set (q := (int_of x * int_of x) ^ (h - 1)) in *. set (c := if Z.odd iy then int_of x else 1). assert (Nc : c <> 0) by (unfold c; destruct (Z.odd iy); auto; lia). replace (int_of r * (int_of x * int_of x * q * c)) with (int_of x * int_of x * (q * c * int_of r)) by ring. apply abs_mul_ge. apply Z.neq_mul_0; split; auto. apply Z.neq_mul_0; auto. }
    destruct Sq as (x1 & -> & Cx1 & Vx1). cbn [bind].
    unfold T in B. clear T. replace (int_of r * int_of x ^ iy) with (int_of r1 * int_of x1 ^ h) in *. 2: { rewrite V1, Vx1, Pw. ring. }
    apply IHk; [exact C1|exact Cx1| | | | |exact B].
    + rewrite V1. destruct (Z.odd iy); apply Z.neq_mul_0; auto with zarith.
    + rewrite Vx1. apply Z.neq_mul_0; auto.
    + split; [lia|]. destruct (Z.odd iy); lia.
    + lia.
Qed.
Lemma iexpt10_ok : forall n, (n <= 340)%nat -> returns (iexpt10 n) (10 ^ Z.of_nat n).
Proof.
  induction n; intros H; cbn [iexpt10]. { now apply ret_mkint. }
  destruct IHn as (r & -> & Cr & Vr); [lia|]. cbn [bind]. rewrite mkint_id by (unfold FIX_MIN, FIX_MAX; lia). rewrite Nat2Z.inj_succ, Z.pow_succ_r by lia. rewrite (Z.mul_comm 10), <- Vr.
  apply (num_mul_ok r (Fix 10)); [exact Cr|apply can_fix; lia|]. cbn [nwords]. assert (nwords r <= 100); [|unfold MAX_DIGITS; lia]. apply nwords_le; auto; [lia|]. rewrite Vr, Z.abs_eq by (apply Z.pow_nonneg; lia). apply Z.le_lt_trans with (10 ^ 340); [apply Z.pow_le_mono_r; lia|]. reflexivity.
Qed.
Lemma expt0_loop : forall k fuel r iy, canonical r -> nwords r < MAX_DIGITS -> 0 < iy < 2 ^ Z.of_nat k -> (k + 1 <= fuel)%nat -> returns (expt_loop fuel r (Fix 0) iy) 0.
Proof.
  induction k; intros fuel r iy Cr Lr Hy Hf. { change (2 ^ Z.of_nat 0) with 1 in Hy. lia. }
  rewrite Nat2Z.inj_succ, Z.pow_succ_r in Hy by lia. destruct fuel as [|fuel]; [lia|]. cbn [expt_loop]. rewrite (proj2 (Z.eqb_neq iy 0)) by lia. assert (C0 : canonical (Fix 0)) by (apply can_fix; lia).
  destruct (num_mul_ok r (Fix 0) Cr C0) as (z & E & Cz & Vz). { cbn [nwords]. lia. } cbn [int_of] in Vz. rewrite Z.mul_0_r in Vz.
  assert (z = Fix 0). { destruct z; [cbn in Vz; now subst|]. destruct (big_val b Cz) as (A & _). change (bval b = 0) in Vz. lia. } subst z.
  destruct (Z.eqb_spec iy 1). { rewrite E. now apply ret_ok. }
  rewrite Z.shiftr_div_pow2 by lia. change (2 ^ 1) with 2. assert (1 <= iy / 2) by (apply Z.div_le_lower_bound; lia). assert (iy / 2 < 2 ^ Z.of_nat k) by (apply Z.div_lt_upper_bound; lia).
  change (num_mul (Fix 0) (Fix 0)) with (Ok (Fix 0)). rewrite E. destruct (Z.odd iy); cbn [bind]; apply IHk; auto; try lia; reflexivity.
Qed.
Lemma num_expt_ok : forall x y, canonical x -> canonical y -> 0 <= int_of y -> (int_of y < 2 ^ 61 \/ int_of x = 1 \/ int_of x = -1) -> (int_of x = 2 -> int_of y < 268435456) -> Z.abs (int_of x ^ int_of y) < LIM ->
  returns (num_expt x y) (int_of x ^ int_of y).
Proof.
  intros x y Cx Cy Py Hy H2 B. unfold num_expt. rewrite num_sign_ok by auto. destruct (Z.eqb_spec (Z.sgn (int_of y)) 0) as [E|N].
  { assert (E0 : int_of y = 0) by lia. rewrite E0, Z.pow_0_r. now apply ret_mkint. }
  assert (Py' : 0 < int_of y) by lia.
  destruct (Z.eq_dec (int_of x) 1) as [X1|X1].
  { assert (x = Fix 1). { destruct x; [cbn in X1; now subst|]. destruct (big_val b Cx) as (A & _). change (bval b = 1) in X1. lia. } subst x. rewrite X1, Z.pow_1_l by lia. now apply ret_mkint. }
  destruct (Z.eq_dec (int_of x) (-1)) as [X2|X2].
  { assert (x = Fix (-1)). { destruct x; [cbn in X2; now subst|]. destruct (big_val b Cx) as (A & _). change (bval b = -1) in X2. lia. } subst x. rewrite X2. rewrite num_oddp_ok by auto. cbn [bind].
    destruct (Z.odd (int_of y)) eqn:O.
    - apply ret_mkint; [lia|]. apply Zodd_bool_iff, Zodd_ex_iff in O. destruct O as [h Hh]. rewrite Hh. rewrite Z.pow_add_r, Z.pow_mul_r by lia. change ((-1) ^ 2) with 1. rewrite Z.pow_1_l by lia. reflexivity.
    - apply ret_mkint; [lia|]. assert (Ev : Z.even (int_of y) = true) by (rewrite <- Z.negb_odd, O; reflexivity). apply Zeven_bool_iff, Zeven_ex_iff in Ev. destruct Ev as [h Hh]. rewrite Hh. rewrite Z.pow_mul_r by lia. change ((-1) ^ 2) with 1. now rewrite Z.pow_1_l by lia. }
  destruct Hy as [Hy|[Hy|Hy]]; [|contradiction|contradiction]. destruct y as [iy|b]. 2: { exfalso. destruct (big_val b Cy) as (A & _). change (int_of (Bn b)) with (bval b) in *. change (2 ^ 61) with 2305843009213693952 in Hy. lia. }
  cbn [int_of] in *.
  assert (G : returns (expt_loop 64 (mkint 1) x iy) (int_of x ^ iy)).
  { rewrite mkint_id by (unfold FIX_MIN, FIX_MAX; lia). destruct (Z.eq_dec (int_of x) 0) as [X0|X0].
    - assert (x = Fix 0). { destruct x; [cbn in X0; now subst|]. destruct (big_val b Cx) as (A & _). change (bval b = 0) in X0. lia. } subst x. cbn [int_of]. rewrite Z.pow_0_l by lia. clear B H2. apply (expt0_loop 61%nat); [apply can_fix; lia|reflexivity|change (Z.of_nat 61) with 61; split; [lia|exact Hy]|lia].
    - rewrite <- (Z.mul_1_l (int_of x ^ iy)). change 1 with (int_of (Fix 1)) at 2. apply (expt_loop_ok 61%nat).
      + apply can_fix; lia. + exact Cx. + discriminate. + exact X0. + change (Z.of_nat 61) with 61. split; [lia|exact Hy]. + lia. + cbn [int_of]. rewrite Z.mul_1_l. exact B. }
  destruct (Z.eq_dec (int_of x) 10) as [X10|X10].
  { assert (x = Fix 10). { destruct x; [cbn in X10; now subst|]. destruct (big_val b Cx) as (A & _). change (bval b = 10) in X10. lia. } subst x. destruct (Z.ltb_spec iy 341); auto. rewrite X10. rewrite <- (Z2Nat.id iy) at 2 by lia. apply iexpt10_ok. lia. }
  destruct (Z.eq_dec (int_of x) 2) as [X3|X3].
  { assert (x = Fix 2). { destruct x; [cbn in X3; now subst|]. destruct (big_val b Cx) as (A & _). change (bval b = 2) in X3. lia. } subst x. rewrite X3. specialize (H2 eq_refl). rewrite mkint_id by (unfold FIX_MIN, FIX_MAX; lia).
    rewrite <- (Z.mul_1_l (2 ^ iy)), <- Z.shiftl_mul_pow2 by lia. apply (num_ash_ok (Fix 1) iy).
    - apply can_fix; lia. - exact H2. - reflexivity. - intros _. cbn [nwords]. assert ((iy + 63) / 64 <= 4194305) by (apply Z.div_le_upper_bound; lia). unfold MAX_DIGITS. lia.
    - unfold ash_exception. cbn [int_of]. lia. - cbn [int_of]. congruence. }
  destruct x as [v|b]; auto. cbn [int_of] in *. destruct v as [|p|p]; auto.
  - repeat (destruct p as [p|p|]; auto; try (exfalso; lia)).
  - destruct p as [p|p|]; auto; exfalso; lia.
Qed.
