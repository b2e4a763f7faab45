From Coq Require Import ZArith QArith List Bool Lia Znumtheory.
From Verif Require Import Outcome BignumModel BignumProofs BignumProofs2 IntModel IntSpec IntProofs IntProofs2 IntProofs3 RatModel RatSpec RatProofs.
Import ListNotations.
Local Open Scope Z_scope.
Ltac Zify.zify_post_hook ::= idtac.

Lemma MAXD : MAX_DIGITS = 1073741823. Proof. reflexivity. Qed.
Lemma p26 : 2 ^ 26 = 67108864. Proof. reflexivity. Qed.
Lemma mod_parts x : wf x -> moderate x -> 1 <= nwords (numer_of x) <= 67108864 /\ 1 <= nwords (denom_of x) <= 67108864.
Proof.
  intros Wx M. destruct (wf_parts x Wx) as (A & B & _). pose proof (nwords_pos _ A). pose proof (nwords_pos _ B). rewrite <- p26. destruct x as [n|n d]; cbn [moderate numer_of denom_of nwords] in *; [|lia]. rewrite p26 in *. lia.
Qed.
Lemma mul_sz x y : canonical x -> canonical y -> nwords x + nwords y <= MAX_DIGITS -> exists z, num_mul x y = Ok z /\ canonical z /\ int_of z = int_of x * int_of y /\ nwords z <= nwords x + nwords y.
Proof.
  intros Cx Cy L. destruct (num_mul_ok x y Cx Cy L) as (z & E & Cz & V). exists z. split; auto. split; auto. split; auto. pose proof (nwords_pos x Cx). pose proof (nwords_pos y Cy). apply nwords_le; auto; [lia|]. rewrite V, Z.abs_mul, Z.pow_add_r by lia. apply Z.mul_lt_mono_nonneg; auto using Z.abs_nonneg, nwords_upper.
Qed.
Lemma add_bound a b x y n : canonical x -> canonical y -> a = int_of x -> b = int_of y -> nwords x <= n -> nwords y <= n -> Z.abs a + Z.abs b < W ^ (n + 1).
Proof.
  intros Cx Cy -> -> Lx Ly. pose proof (nwords_pos x Cx). pose proof (nwords_upper x Cx) as Ux. pose proof (nwords_upper y Cy) as Uy. assert (W ^ nwords x <= W ^ n) by (apply Z.pow_le_mono_r; [reflexivity|lia]). assert (W ^ nwords y <= W ^ n) by (apply Z.pow_le_mono_r; [reflexivity|lia]). rewrite Z.pow_add_r, Z.pow_1_r by lia. pose proof W_big. nia.
Qed.
Lemma addsub_sz (sub : bool) x y n : canonical x -> canonical y -> nwords x <= n -> nwords y <= n -> n < MAX_DIGITS ->
  exists z, (if sub then num_sub x y else num_add x y) = Ok z /\ canonical z /\ int_of z = (if sub then int_of x - int_of y else int_of x + int_of y) /\ nwords z <= n + 1.
Proof.
  intros Cx Cy Lx Ly L. pose proof (nwords_pos x Cx). pose proof (add_bound _ _ x y n Cx Cy eq_refl eq_refl Lx Ly) as B. destruct sub.
  - destruct (num_sub_ok x y Cx Cy ltac:(lia) ltac:(lia)) as (z & E & Cz & V). exists z. split; auto. split; auto. split; auto. apply nwords_le; auto; [lia|]. rewrite V. lia.
  - destruct (num_add_ok x y Cx Cy ltac:(lia) ltac:(lia)) as (z & E & Cz & V). exists z. split; auto. split; auto. split; auto. apply nwords_le; auto; [lia|]. rewrite V. lia.
Qed.
(** what makes an unreduced result harmless, said of the result *)
Definition hazard (p q : Z) (d : Z) : Prop := (exists j, 0 < j /\ p * j = - q) /\ (2 ^ 61 | d).
Lemma safe_scaled p q P Q0 d : 0 < q -> 0 < Q0 -> p * Q0 = P * q -> (q | d) -> ~ hazard P Q0 d -> safe p q.
Proof.
  intros Hq HQ E D H (A & B). apply H. split; [|apply Z.divide_trans with q; auto]. destruct B as (j & B). exists j. rewrite Z.sgn_pos in A by auto. assert (0 < 2 ^ 61) by reflexivity. set (c := 2 ^ 61) in *. clearbody c. assert (0 < j) by nia. split; auto. subst q. assert (p = - c) by lia. subst p. apply (Z.mul_reg_l _ _ c); [lia|]. nia.
Qed.
Lemma yields_scale r p q P Q0 : 0 < q -> 0 < Q0 -> p * Q0 = P * q -> yields r p q -> yields r P Q0.
Proof. intros Hq HQ E (x & Ex & Wx & V). exists x. split; auto. split; auto. apply (Z.mul_reg_l _ _ q); [lia|]. transitivity (vn x * q * Q0); [ring|]. rewrite V. transitivity (p * Q0 * vd x); [ring|]. rewrite E. ring. Qed.

Lemma ratnum_addsub_ok x y (sub : bool) : wf x -> wf y -> moderate x -> moderate y ->
  ~ hazard (if sub then vn x * vd y - vn y * vd x else vn x * vd y + vn y * vd x) (vd x * vd y) (vd x * vd y) ->
  yields (ratnum_addsub x y sub) (if sub then vn x * vd y - vn y * vd x else vn x * vd y + vn y * vd x) (vd x * vd y).
Proof.
  intros Wx Wy Mx My Hz. destruct (wf_parts x Wx) as (Cnx & Cdx & _). destruct (wf_parts y Wy) as (Cny & Cdy & _). pose proof (vd_pos x Wx) as Px. pose proof (vd_pos y Wy) as Py. destruct (mod_parts x Wx Mx) as (Lnx & Ldx). destruct (mod_parts y Wy My) as (Lny & Ldy).
  pose proof MAXD as MD. set (Q0 := vd x * vd y) in *. set (P := if sub then vn x * vd y - vn y * vd x else vn x * vd y + vn y * vd x) in *. assert (HQ : 0 < Q0) by (unfold Q0; nia).
  assert (Fin : forall a b dr, canonical a -> canonical b -> canonical dr -> nwords a <= 402653184 -> nwords b <= 402653184 -> nwords dr <= 402653184 -> 0 < int_of dr -> (int_of dr | Q0) ->
    (if sub then int_of a - int_of b else int_of a + int_of b) * Q0 = P * int_of dr ->
    yields (do nr <- (if sub then num_sub a b else num_add a b); make_rational nr dr) P Q0).
  { intros a b dr Ca Cb Cd La Lb Ld Pd Dv E. destruct (addsub_sz sub a b 402653184 Ca Cb La Lb ltac:(lia)) as (nr & En & Cn & Vn & Ln). rewrite En. cbn [bind].
    assert (E2 : int_of nr * Q0 = P * int_of dr) by (rewrite Vn; exact E).
    apply (yields_scale _ (int_of nr) (int_of dr)); auto. apply make_rational_ok; auto; try lia. apply (safe_scaled _ _ P Q0 Q0); auto. }
  unfold ratnum_addsub. rewrite num_eq_ok by auto. cbn [bind]. fold (vd x) (vd y).
  destruct (Z.eqb_spec (vd x) (vd y)) as [Eq|Nq].
  { apply Fin; auto; try lia. { exists (vd y). unfold Q0. fold (vd x). ring. } unfold P, Q0, vn. fold (vd x). destruct sub; rewrite Eq; ring. }
  assert (Gc : exists g, (if one_p (denom_of x) || one_p (denom_of x) then Ok (Fix 1) else num_gcd (denom_of x) (denom_of y)) = Ok g /\ canonical g /\ int_of g = Z.gcd (vd x) (vd y)).
  { rewrite one_p_ok by auto. fold (vd x). destruct (Z.eqb_spec (vd x) 1) as [E1|E1]; cbn [orb].
    - exists (Fix 1). split; auto. split; [exact can_one|]. rewrite E1. cbn [int_of]. symmetry. apply Z.gcd_1_l.
    - destruct (num_gcd_ok (denom_of x) (denom_of y) Cdx Cdy ltac:(lia) ltac:(lia) ltac:(fold (vd x) (vd y); lia) ltac:(fold (vd x) (vd y); lia)) as (g & A & B & C). exists g. auto. }
  destruct Gc as (g & Eg & Cg & Vg). rewrite Eg. cbn [bind]. rewrite num_eq_ok by auto. cbn [bind]. fold (vd x).
  assert (Gp : 0 < int_of g). { rewrite Vg. pose proof (Z.gcd_nonneg (vd x) (vd y)). destruct (Z.eq_dec (Z.gcd (vd x) (vd y)) 0) as [E|E]; [apply Z.gcd_eq_0_r in E; lia|lia]. }
  destruct (Z.gcd_divide_l (vd x) (vd y)) as (qx & Ex). destruct (Z.gcd_divide_r (vd x) (vd y)) as (qy & Ey). rewrite <- Vg in Ex, Ey.
  assert (Nh : forall d c, 0 < int_of d -> ~ (int_of d = - 2 ^ 61 /\ c = 2 ^ 61)). { intros d c Pd (A & _). assert (- 2 ^ 61 < 0) by reflexivity. lia. }
  destruct (Z.eqb_spec (vd x) (int_of g)) as [E1|N1].
  { destruct (quot_exact (denom_of y) (denom_of x) qy Cdy Cdx ltac:(lia) Px) as (q & r & Eq & Cq & Vq). { fold (vd x) (vd y). rewrite E1. exact Ey. } { apply Nh. exact Py. }
    rewrite Eq. cbn [bind fst]. assert (Lq : nwords q <= 67108864). { transitivity (nwords (denom_of y)); [|lia]. apply nwords_mono; auto. fold (vd y). rewrite Vq, Ey. rewrite Z.abs_mul. assert (1 <= Z.abs (int_of g)) by lia. pose proof (Z.abs_nonneg qy). nia. }
    destruct (mul_sz q (numer_of x) Cq Cnx ltac:(lia)) as (n1 & En & Cn & Vn & Ln). rewrite En. cbn [bind]. apply Fin; auto; try lia. { exists (vd x). reflexivity. }
    fold (vn y) (vd y). rewrite Vn, Vq. fold (vn x). unfold P, Q0. assert (vd y = qy * vd x) by (rewrite E1; exact Ey). destruct sub; rewrite H; ring. }
  rewrite num_eq_ok by auto. cbn [bind]. fold (vd y). destruct (Z.eqb_spec (vd y) (int_of g)) as [E2|N2].
  { destruct (quot_exact (denom_of x) (denom_of y) qx Cdx Cdy ltac:(lia) Py) as (q & r & Eq & Cq & Vq). { fold (vd x) (vd y). rewrite E2. exact Ex. } { apply Nh. exact Px. }
    rewrite Eq. cbn [bind fst]. assert (Lq : nwords q <= 67108864). { transitivity (nwords (denom_of x)); [|lia]. apply nwords_mono; auto. fold (vd x). rewrite Vq, Ex. rewrite Z.abs_mul. assert (1 <= Z.abs (int_of g)) by lia. pose proof (Z.abs_nonneg qx). nia. }
    destruct (mul_sz q (numer_of y) Cq Cny ltac:(lia)) as (n1 & En & Cn & Vn & Ln). rewrite En. cbn [bind]. apply Fin; auto; try lia. { exists (vd y). unfold Q0, vd. ring. }
    fold (vn x) (vd x). rewrite Vn, Vq. fold (vn y). unfold P, Q0. assert (vd x = qx * vd y) by (rewrite E2; exact Ex). destruct sub; rewrite H; ring. }
  destruct (quot_exact (denom_of x) g qx Cdx Cg ltac:(lia) Gp Ex) as (fx & r1 & Efx & Cfx & Vfx). { apply Nh. exact Px. }
  destruct (quot_exact (denom_of y) g qy Cdy Cg ltac:(lia) Gp Ey) as (fy & r2 & Efy & Cfy & Vfy). { apply Nh. exact Py. }
  rewrite Efx, Efy. cbn [bind fst].
  assert (Lfx : nwords fx <= 67108864). { transitivity (nwords (denom_of x)); [|lia]. apply nwords_mono; auto. fold (vd x). rewrite Vfx, Ex. rewrite Z.abs_mul. pose proof (Z.abs_nonneg qx). assert (1 <= Z.abs (int_of g)) by lia. nia. }
  assert (Lfy : nwords fy <= 67108864). { transitivity (nwords (denom_of y)); [|lia]. apply nwords_mono; auto. fold (vd y). rewrite Vfy, Ey. rewrite Z.abs_mul. pose proof (Z.abs_nonneg qy). assert (1 <= Z.abs (int_of g)) by lia. nia. }
  destruct (mul_sz (numer_of x) fy Cnx Cfy ltac:(lia)) as (a & Ea & Ca & Va & La). destruct (mul_sz (numer_of y) fx Cny Cfx ltac:(lia)) as (b & Eb & Cb & Vb & Lb). destruct (mul_sz (denom_of x) fy Cdx Cfy ltac:(lia)) as (dr & Ed & Cd & Vdr & Ldr).
  rewrite Ea. cbn [bind]. rewrite Eb. cbn [bind]. rewrite Ed. cbn [bind]. assert (Q1 : 0 < qy) by nia.
  apply Fin; auto; try lia.
  - rewrite Vdr, Vfy. fold (vd x). nia.
  - rewrite Vdr, Vfy. fold (vd x). exists (int_of g). unfold Q0. rewrite Ey at 1. ring.
  - rewrite Va, Vb, Vdr, Vfx, Vfy. fold (vn x) (vn y) (vd x). unfold P, Q0. rewrite Ey, Ex. destruct sub; ring.
Qed.
Lemma ratnum_muldiv_ok x y (div : bool) : wf x -> wf y -> moderate x -> moderate y -> (div = true -> vn y <> 0) ->
  safe (vn x * (if div then vd y else vn y)) (vd x * (if div then vn y else vd y)) ->
  yields (ratnum_muldiv x y div) (vn x * (if div then vd y else vn y)) (vd x * (if div then vn y else vd y)).
Proof.
  intros Wx Wy Mx My Nz Sf. destruct (wf_parts x Wx) as (Cnx & Cdx & _). destruct (wf_parts y Wy) as (Cny & Cdy & _). pose proof (vd_pos x Wx) as Px. pose proof (vd_pos y Wy) as Py. destruct (mod_parts x Wx Mx) as (Lnx & Ldx). destruct (mod_parts y Wy My) as (Lny & Ldy). pose proof MAXD as MD.
  unfold ratnum_muldiv. destruct (mul_sz (numer_of x) (if div then denom_of y else numer_of y) Cnx ltac:(destruct div; auto) ltac:(destruct div; lia)) as (n & En & Cn & Vn & Ln). destruct (mul_sz (denom_of x) (if div then numer_of y else denom_of y) Cdx ltac:(destruct div; auto) ltac:(destruct div; lia)) as (d & Ed & Cd & Vd & Ld).
  rewrite En. cbn [bind]. rewrite Ed. cbn [bind].
  assert (Vn' : int_of n = vn x * (if div then vd y else vn y)) by (rewrite Vn; destruct div; reflexivity). assert (Vd' : int_of d = vd x * (if div then vn y else vd y)) by (rewrite Vd; destruct div; reflexivity).
  rewrite <- Vn', <- Vd' in *. apply make_rational_ok; auto; try (destruct div; lia).
Qed.
