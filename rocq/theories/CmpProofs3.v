(** Proofs about CmpModel: exact numbers, and integers against flonums *)
From Coq Require Import ZArith QArith List Bool Lia.
From Verif Require Import Outcome BignumModel BignumProofs2 IntModel IntSpec IntProofs RatModel RatSpec FloModel FloSpec FloProofs FloProofs3 FloProofs7 InexModel InexProofs InexProps CmpModel CmpSpec CmpProofs CmpProofs2.
Import ListNotations.
Local Open Scope Z_scope.
Ltac Zify.zify_post_hook ::= idtac.

Lemma max_digits : 2 ^ 28 <= MAX_DIGITS. Proof. unfold MAX_DIGITS. discriminate. Qed.
Lemma cmpz_opp a b : - cmpz a b = cmpz b a.
Proof. unfold cmpz. rewrite (Z.compare_antisym b a). now destruct (b ?= a). Qed.
Lemma cmpz_eq a b : cmpz a b = 0 <-> a = b.
Proof. unfold cmpz. destruct (Z.compare_spec a b); split; intros; try lia; congruence. Qed.
Lemma cmpz_sgn a b : cmpz a b = Z.sgn (a - b).
Proof. unfold cmpz. destruct (Z.compare_spec a b); lia. Qed.
Lemma order_z a b c d : order (a # c) (b # d) = cmpz (a * Z.pos d) (b * Z.pos c).
Proof. reflexivity. Qed.
Lemma order_opp p q : - order p q = order q p.
Proof. destruct p, q. rewrite !order_z. apply cmpz_opp. Qed.

Lemma rat_rat_ok n0 d0 n1 d1 : canonical n0 -> canonical d0 -> canonical n1 -> canonical d1 -> 0 < int_of d0 -> 0 < int_of d1 ->
  nwords n0 + nwords d1 <= MAX_DIGITS -> nwords n1 + nwords d0 <= MAX_DIGITS ->
  rat_rat_cmp n0 d0 n1 d1 = Ok (cmpz (int_of n0 * int_of d1) (int_of n1 * int_of d0)).
Proof.
  intros C0 E0 C1 E1 P0 P1 B0 B1. unfold rat_rat_cmp. rewrite !num_sign_ok, !num_cmp_ok by auto. cbn [bind]. set (a := int_of n0) in *. set (b := int_of d0) in *. set (c := int_of n1) in *. set (d := int_of d1) in *.
  destruct (Z.ltb_spec (Z.sgn a) (Z.sgn c)) as [S1|S1]. { rewrite cmpz_lt; auto. assert (a < 0 \/ a = 0 \/ 0 < a) as [?|[?|?]] by lia; assert (c < 0 \/ c = 0 \/ 0 < c) as [?|[?|?]] by lia; try lia; nia. }
  destruct (Z.ltb_spec (Z.sgn c) (Z.sgn a)) as [S2|S2]. { rewrite cmpz_gt; auto. assert (a < 0 \/ a = 0 \/ 0 < a) as [?|[?|?]] by lia; assert (c < 0 \/ c = 0 \/ 0 < c) as [?|[?|?]] by lia; try lia; nia. }
  destruct (Z.eqb_spec (cmpz b d) 0) as [Q|Q]. { apply (proj1 (cmpz_eq b d)) in Q. rewrite <- Q. rewrite !cmpz_sgn. f_equal. replace (a * b - c * b) with ((a - c) * b) by ring. rewrite Z.sgn_mul, (Z.sgn_pos b) by auto. lia. }
  assert (L : forall r, (do p <- num_mul n0 d1; do q <- num_mul n1 d0; num_cmp p q) = r -> r = Ok (cmpz (a * d) (c * b))). { intros r <-. destruct (num_mul_ok n0 d1 C0 E1 B0) as (p & -> & Cp & Vp). destruct (num_mul_ok n1 d0 C1 E0 B1) as (q & -> & Cq & Vq). cbn [bind]. rewrite num_cmp_ok by auto. now rewrite Vp, Vq. }
  rewrite !cmpz_sgn. destruct (_ && (_ && _)) eqn:T1.
  { apply andb_prop in T1 as (T0 & T1). apply andb_prop in T1 as (T1 & T2). apply Z.ltb_lt in T1. apply Z.leb_le in T2. f_equal. apply orb_prop in T0 as [T0|T0]; apply andb_prop in T0 as (T3 & T4); apply Z.ltb_lt in T3, T4.
    - assert (Ha : Z.sgn a = 1) by lia. rewrite Ha in *. assert (0 < a) by lia. rewrite Z.sgn_neg; auto. assert (a <= c) by lia. assert (d < b) by lia. nia.
    - assert (Ha : Z.sgn a = -1) by lia. rewrite Ha in *. assert (a < 0) by lia. rewrite Z.sgn_pos; auto. assert (c <= a) by lia. assert (d < b) by lia. nia. }
  clear T1. destruct (_ && (_ && _)) eqn:T2; [|etransitivity; [exact (L _ eq_refl)|]; f_equal; apply cmpz_sgn].
  apply andb_prop in T2 as (T0 & T2). apply andb_prop in T2 as (T2 & T3). apply Z.ltb_lt in T2. apply Z.leb_le in T3. f_equal. apply orb_prop in T0 as [T0|T0]; apply andb_prop in T0 as (T4 & T5); apply Z.ltb_lt in T4, T5.
  - assert (Ha : Z.sgn a = 1) by lia. rewrite Ha in *. assert (0 < a) by lia. rewrite Z.sgn_pos; auto. assert (c <= a) by lia. assert (b < d) by lia. nia.
  - assert (Ha : Z.sgn a = -1) by lia. rewrite Ha in *. assert (a < 0) by lia. rewrite Z.sgn_neg; auto. assert (a <= c) by lia. assert (b < d) by lia. nia.
Qed.
Lemma same_double m k m' k' : is_double m k -> is_double m' k' -> units m k = units m' k' -> m = m' /\ k = k'.
Proof. intros H H' E. pose proof (nearest_exact _ _ H) as R. rewrite E in R. exact (nearest_unique _ _ _ _ _ _ Z.lt_0_1 R (nearest_exact _ _ H')). Qed.
Lemma same_flonum_iff v n d : in_fixnum_range v -> canonical n -> canonical d -> 0 < int_of d -> int_of n < 0 -> v <> 0 ->
  (ext_of (get_double (EInt (Fix v))) = ext_of (get_double (ERat n d)) <-> same_flonum v (int_of n # Z.to_pos (int_of d))).
Proof.
  intros Rv Cn Cd D1 Hn Nv. destruct (fix_units v Rv) as (X & mx & kx & EX & RX & DX & VX). rewrite EX. cbn [get_double]. rewrite (proj2 (Z.ltb_lt (int_of n) 0)) by lia. set (N := Z.abs (int_of n)). assert (HN : 0 < N) by (unfold N; lia). pose proof (units_nonneg _ _ (proj1 DX)) as UX.
  destruct (rnd_nearest (Z.abs v * c1074) 1 Z.lt_0_1 (c_nn _ (Z.abs_nonneg v))) as (m0 & k0 & R0 & E0). rewrite RX in E0. destruct (Z.ltb_spec 971 k0) as [K0|K0]; [discriminate|]. injection E0 as <- <-.
  assert (PX : c1074 <= units mx kx). { assert (LX : fle (rnd (1 * c1074) 1) (rnd (Z.abs v * c1074) 1)). { apply rnd_le; [reflexivity|reflexivity|apply c_nn; discriminate|apply c_nn; lia|]. rewrite !Z.mul_1_r. apply Z.mul_le_mono_nonneg_r; [apply p_nn|lia]. } destruct rnd_one as (m1 & k1 & E1 & U1). rewrite E1, RX in LX. apply fle_units in LX. rewrite U1 in LX. exact LX. }
  pose proof c_pos as P. unfold same_flonum. cbn [Qnum Qden]. rewrite Z2Pos.id by auto. fold N.
  destruct (rnd_nearest (N * c1074) (int_of d) D1 (c_nn _ (Z.lt_le_incl _ _ HN))) as (my & ky & RY & EY).
  split.
  - intros E. destruct (rat_to_double N (int_of d)) as [m k|] eqn:ED; [|discriminate]. cbn [ext_of] in E. injection E as E. change (sv m k) with (units m k) in E.
    pose proof (rat_fin_double _ _ _ _ HN D1 ED) as DY. pose proof (units_nonneg _ _ (proj1 DY)).
    assert (v < 0) by (destruct (Z.ltb_spec v 0); [auto|]; set (c := c1074) in *; clearbody c; lia). rewrite (proj2 (Z.ltb_lt v 0)) in VX by auto. destruct (same_double mx kx m k (proj1 DX) (proj1 DY) ltac:(lia)) as (<- & <-).
    split; auto. split; [unfold Qlt; cbn [Qnum Qden]; lia|]. exists mx, kx. split; auto. destruct (Z.le_gt_cases (int_of d) (N * 2 ^ 1022)) as [L|L].
    + rewrite rat_to_double_ok in ED by auto. rewrite ED in EY. destruct (971 <? ky); [discriminate|]. injection EY as <- <-. exact RY.
    + destruct (rat_tiny N (int_of d) HN D1 L) as (m' & k' & E' & _ & U'). rewrite ED in E'. injection E' as <- <-. set (c := c1074) in *. clearbody c. lia.
  - intros (Pv & _ & m & k & R1 & R2). destruct (nearest_unique _ _ _ _ _ _ Z.lt_0_1 R0 R1) as (<- & <-). destruct (nearest_unique _ _ _ _ _ _ D1 RY R2) as (-> & ->). rewrite (proj2 (Z.ltb_ge _ _) K0) in EY.
    assert (ED : rat_to_double N (int_of d) = Fin mx kx). { destruct (Z.le_gt_cases (int_of d) (N * 2 ^ 1022)) as [L|L]; [now rewrite rat_to_double_ok|]. exfalso.
      destruct (double_pow 1073 ltac:(lia) ltac:(lia)) as (m3 & k3 & D3 & U3). assert (E73 : c1074 = 2 * 2 ^ 1073) by (rewrite <- Z.pow_succ_r by discriminate; f_equal).
      assert (N2 : N * 2 <= int_of d). { apply Z.le_trans with (N * 2 ^ 1022); [|apply Z.lt_le_incl, L]. apply Z.mul_le_mono_nonneg_l; [lia|]. change 2 with (2 ^ 1) at 1. apply Z.pow_le_mono_r; lia. }
      pose proof (nearest_le _ _ _ _ m3 k3 D1 RY (proj1 D3)) as Q. rewrite U3, E73 in Q. rewrite E73 in PX. pose proof (pow2_pos 1073 ltac:(lia)) as P3. clear - Q PX N2 P3 D1. set (b := 2 ^ 1073) in *. clearbody b. specialize (Q ltac:(nia)). lia. }
    rewrite ED. cbn [ext_of]. change (sv mx kx) with (units mx kx). rewrite VX, (proj2 (Z.ltb_lt v 0) Pv). reflexivity.
Qed.
Lemma int_rat_ok x n d : canonical x -> canonical n -> canonical d -> 1 < int_of d -> Z.gcd (int_of n) (int_of d) = 1 -> nwords x + nwords d <= MAX_DIGITS ->
  ~ confused (EInt x) (ERat n d) -> int_rat_cmp x n d = Ok (cmpz (int_of x * int_of d) (int_of n)).
Proof.
  intros Cx Cn Cd D1 G B NC. destruct x as [v|b]; cbn [int_rat_cmp]; [|now apply mul_cmp]. cbn [int_of]. cbn [nwords] in B.
  assert (int_of n <> 0) by (intros Q; rewrite Q, Z.gcd_0_l in G; lia). destruct (Z.lt_ge_cases 0 (int_of n)) as [Pn|Pn].
  - apply fix_rat_pos; auto. lia.
  - apply fix_rat_neg; auto; try lia. destruct (Z.eq_dec v 0) as [|Nv]; [now right|]. left. intros E. apply NC. cbn [confused rat_of]. apply same_flonum_iff; auto; lia.
Qed.
Lemma exact_cmp_ok x y : wf x -> wf y -> moderate x -> moderate y -> ~ confused x y -> exact_cmp x y = Ok (order (rat_of x) (rat_of y)).
Proof.
  intros Wx Wy Mx My NC. pose proof max_digits as MD. assert (E28 : 2 ^ 28 = 268435456) by reflexivity. assert (E26 : 2 ^ 26 = 67108864) by reflexivity.
  destruct x as [a|n0 d0], y as [b|n1 d1]; cbn [exact_cmp wf moderate rat_of] in *.
  - rewrite num_cmp_ok by auto. unfold inject_Z; rewrite order_z. now rewrite !Z.mul_1_r.
  - destruct Wy as (C1 & C2 & P & G). rewrite int_rat_ok; auto; [|lia]. unfold inject_Z; rewrite order_z. rewrite Z2Pos.id by lia. now rewrite Z.mul_1_r.
  - destruct Wx as (C1 & C2 & P & G). rewrite int_rat_ok; auto; [|lia]. cbn [bind]. unfold inject_Z; rewrite order_z. rewrite Z2Pos.id by lia. rewrite Z.mul_1_r, cmpz_opp. reflexivity.
  - destruct Wx as (C1 & C2 & P & G), Wy as (C3 & C4 & P' & G'). rewrite rat_rat_ok; auto; try lia. unfold inject_Z; rewrite order_z. now rewrite !Z2Pos.id by lia.
Qed.
