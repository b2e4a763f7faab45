(** * C41: exact rational arithmetic *)
From Coq Require Import ZArith QArith Qround Qabs List Bool Lia.
From Verif Require Import Outcome BignumModel IntModel IntSpec IntProofs IntProps RatModel RatSpec RatProofs RatProofs2 RatProofs3.
Import ListNotations.
Local Open Scope Z_scope.
Ltac Zify.zify_post_hook ::= idtac.

(** Sums, differences, products and quotients of exact numbers are exact and in lowest terms.
    Missing: results -1/j whose denominator before reduction is a multiple of 2^61, where
    [rat_div_refuted] shows what happens. *)
Theorem rat_add_partial x y : wf x -> wf y -> moderate x -> moderate y ->
  ~ (minus_unit (rat_of x + rat_of y)%Q /\ (2 ^ 61 | den x * den y)) -> gives (rat_add x y) (rat_of x + rat_of y)%Q.
Proof. exact (rat_add_ok x y). Qed.
Theorem rat_sub_partial x y : wf x -> wf y -> moderate x -> moderate y ->
  ~ (minus_unit (rat_of x - rat_of y)%Q /\ (2 ^ 61 | den x * den y)) -> gives (rat_sub x y) (rat_of x - rat_of y)%Q.
Proof. exact (rat_sub_ok x y). Qed.
Theorem rat_mul_partial x y : wf x -> wf y -> moderate x -> moderate y ->
  ~ (minus_unit (rat_of x * rat_of y)%Q /\ (2 ^ 61 | den x * den y)) -> gives (rat_mul x y) (rat_of x * rat_of y)%Q.
Proof. exact (rat_mul_ok x y). Qed.
Theorem rat_div_partial x y : wf x -> wf y -> moderate x -> moderate y -> ~ (rat_of y == 0)%Q ->
  ~ (minus_unit (rat_of x / rat_of y)%Q /\ (2 ^ 61 | den x * Qnum (rat_of y))) -> gives (rat_div x y) (rat_of x / rat_of y)%Q.
Proof. exact (rat_div_ok x y). Qed.
(** In particular: without exception when the denominators are odd, or the result positive *)
Lemma pow61_odd d : Z.odd d = true -> ~ (2 ^ 61 | d).
Proof. intros O (k & ->). rewrite Z.odd_mul in O. change (Z.odd (2 ^ 61)) with false in O. rewrite andb_false_r in O. discriminate. Qed.
Lemma not_minus_unit q : (0 <= q)%Q -> ~ minus_unit q.
Proof. intros H (j & Pj & E). assert (X : (0 <= q * inject_Z j)%Q) by (apply Qmult_le_0_compat; auto; change 0%Q with (inject_Z 0); rewrite <- Zle_Qle; lia). rewrite E in X. apply X. reflexivity. Qed.
Theorem rat_arith_nonnegative x y : wf x -> wf y -> moderate x -> moderate y ->
  ((0 <= rat_of x + rat_of y)%Q -> gives (rat_add x y) (rat_of x + rat_of y)%Q) /\
  ((0 <= rat_of x - rat_of y)%Q -> gives (rat_sub x y) (rat_of x - rat_of y)%Q) /\
  ((0 <= rat_of x * rat_of y)%Q -> gives (rat_mul x y) (rat_of x * rat_of y)%Q) /\
  (~ (rat_of y == 0)%Q -> (0 <= rat_of x / rat_of y)%Q -> gives (rat_div x y) (rat_of x / rat_of y)%Q).
Proof.
  intros Wx Wy Mx My. repeat split; intros; [apply rat_add_ok|apply rat_sub_ok|apply rat_mul_ok|apply rat_div_ok]; auto; intros (U & _); eapply not_minus_unit; eauto.
Qed.
Theorem rat_arith_odd x y : wf x -> wf y -> moderate x -> moderate y -> Z.odd (den x) = true -> Z.odd (den y) = true ->
  gives (rat_add x y) (rat_of x + rat_of y)%Q /\ gives (rat_sub x y) (rat_of x - rat_of y)%Q /\ gives (rat_mul x y) (rat_of x * rat_of y)%Q.
Proof.
  intros Wx Wy Mx My Ox Oy. assert (O : ~ (2 ^ 61 | den x * den y)) by (apply pow61_odd; rewrite Z.odd_mul, Ox, Oy; reflexivity). repeat split; [apply rat_add_ok|apply rat_sub_ok|apply rat_mul_ok]; auto; intros (_ & D); auto.
Qed.
(** Negation, absolute value and reciprocal have no exception *)
Theorem rat_negate_exact x : wf x -> moderate x -> gives (rat_negate x) (- rat_of x)%Q.
Proof. exact (rat_negate_ok x). Qed.
Theorem rat_abs_exact x : wf x -> moderate x -> gives (rat_abs x) (Qabs (rat_of x)).
Proof. exact (rat_abs_ok x). Qed.
Theorem rat_reciprocal_exact x : wf x -> moderate x -> ~ (rat_of x == 0)%Q -> gives (rat_reciprocal x) (/ rat_of x)%Q.
Proof. exact (rat_reciprocal_ok x). Qed.
Theorem rat_div_by_zero x y : wf x -> wf y -> (rat_of y == 0)%Q -> rat_div x y = Err.
Proof. intros Wx Wy E. apply rat_div_zero; auto. Qed.
Theorem rat_reciprocal_zero x : wf x -> (rat_of x == 0)%Q -> rat_reciprocal x = Err.
Proof.
  intros Wx E. pose proof (rat_div_zero (EInt (Fix 1)) x can_one Wx E (or_intror I)) as D. destruct x as [n|n d].
  - cbn [rat_reciprocal]. cbn [wf] in Wx. cbn [rat_of] in E. assert (int_of n = 0) by (unfold Qeq in E; cbn [Qnum Qden inject_Z] in E; lia). unfold make_rational. rewrite zero_p_ok by auto. rewrite H. reflexivity.
  - exfalso. destruct Wx as (Cn & Cd & D1 & G). cbn [rat_of] in E. unfold Qeq in E. cbn [Qnum Qden] in E. assert (int_of n = 0) by lia. rewrite H, Z.gcd_0_l in G. lia.
Qed.
Theorem rat_sign_exact x : wf x -> rat_sign x = Z.sgn (Qnum (rat_of x)).
Proof. intros Wx. destruct (wf_parts x Wx) as (C & _). unfold rat_sign. rewrite num_sign_ok by auto. destruct x; reflexivity. Qed.
(** equal numbers are represented by the same object *)
Theorem rat_unique x y : wf x -> wf y -> (rat_of x == rat_of y)%Q -> x = y.
Proof.
  intros Wx Wy E. pose proof (vd_pos x Wx) as Px. pose proof (vd_pos y Wy) as Py. destruct (wf_parts x Wx) as (Cnx & Cdx & Gx). destruct (wf_parts y Wy) as (Cny & Cdy & Gy). rewrite (rat_frac x Wx), (rat_frac y Wy) in E. apply frac_inv in E; [|lia|lia].
  assert (D : vd x = vd y). { apply Z.divide_antisym_nonneg; try lia; [apply (Z.gauss _ (vn x)); [rewrite E; exists (vn y); ring|rewrite Z.gcd_comm; exact Gx]|apply (Z.gauss _ (vn y)); [rewrite <- E; exists (vn x); ring|rewrite Z.gcd_comm; exact Gy]]. }
  assert (N : vn x = vn y) by (rewrite D in E; nia). pose proof (int_canonical_unique _ _ Cnx Cny N) as En. pose proof (int_canonical_unique _ _ Cdx Cdy D) as Ed.
  destruct x as [a|n d], y as [b|n' d']; cbn [numer_of denom_of] in *; try congruence; exfalso; [destruct Wy as (_ & _ & W1 & _)|destruct Wx as (_ & _ & W1 & _)]; [rewrite <- Ed in W1|rewrite Ed in W1]; cbn [int_of] in W1; lia.
Qed.

(** Rounding to an integer *)
Definition rounds_to (mode : round_mode) (q : Q) (z : Z) : Prop :=
  match mode with
  | Floor => z = Qfloor q
  | Ceil => z = Qceiling q
  | Trunc => z = if Qle_bool 0 q then Qfloor q else Qceiling q
  | Round => (Qabs (inject_Z z - q) <= 1 # 2)%Q /\ ((Qabs (inject_Z z - q) == 1 # 2)%Q -> Z.even z = true)
  end.
Theorem rat_round_exact x mode : wf x -> moderate x -> exists z, returns (rat_round x mode) z /\ rounds_to mode (rat_of x) z.
Proof.
  intros Wx M. destruct (rat_round_ok x mode Wx M) as (z & R & H). exists z. split; auto. pose proof (vd_pos x Wx) as P.
  assert (E : rat_of x = vn x # Z.to_pos (vd x)) by (destruct x; reflexivity). assert (Ep : Z.pos (Z.to_pos (vd x)) = vd x) by (apply Z2Pos.id; auto). rewrite E. set (N := vn x) in *. set (D := vd x) in *. clearbody N D.
  assert (Fl : Qfloor (N # Z.to_pos D) = N / D) by (apply q_floor; auto). assert (Ce : Qceiling (N # Z.to_pos D) = - ((- N) / D)). { unfold Qceiling. change (- (N # Z.to_pos D))%Q with (- N # Z.to_pos D). now rewrite q_floor. }
  destruct mode; cbn [rounds rounds_to] in *.
  - now rewrite Fl.
  - now rewrite Ce.
  - rewrite Fl, Ce, H. assert (L : Qle_bool 0 (N # Z.to_pos D) = (0 <=? N)). { unfold Qle_bool. cbn [Qnum Qden]. f_equal; lia. } rewrite L. destruct (Z.leb_spec 0 N); [apply Z.quot_div_nonneg; lia|apply quot_neg; lia].
  - assert (A : Qabs (inject_Z z - (N # Z.to_pos D)) = Z.abs (z * D - N) # Z.to_pos D). { unfold Qminus, Qplus, Qopp, inject_Z, Qabs. cbn [Qnum Qden]. rewrite Ep. f_equal. f_equal. ring. } rewrite A. unfold Qle, Qeq. cbn [Qnum Qden]. rewrite Ep. destruct H as (H1 & H2). split; [lia|]. intros X. apply H2. lia.
Qed.

(** ** What goes wrong: (/ (- (expt 2 61)) (expt 2 61)) is 0, and (/ (- (expt 2 61)) (expt 2 62))
    is a ratnum with numerator 0 *)
Definition e61 : num := Bn (Big 1 [2 ^ 61]).
Definition e62 : num := Bn (Big 1 [2 ^ 62]).
Theorem rat_div_refuted :
  let x := EInt (Fix (- 2 ^ 61)) in
  wf x /\ wf (EInt e61) /\ wf (EInt e62) /\ moderate x /\ moderate (EInt e61) /\ moderate (EInt e62) /\
  (rat_of x / rat_of (EInt e61) == -1)%Q /\ rat_div x (EInt e61) = Ok (EInt (Fix 0)) /\
  (rat_of x / rat_of (EInt e62) == -1 # 2)%Q /\ rat_div x (EInt e62) = Ok (ERat (Fix 0) (Fix 2)).
Proof.
  cbv zeta. split; [cbn [wf]; apply can_fix; change (2 ^ 61) with 2305843009213693952; lia|].
  assert (C : forall k, 61 <= k <= 62 -> canonical (Bn (Big 1 [2 ^ k]))). { intros k Hk. cbn [canonical sign words last int_of value]. assert (2 ^ 61 <= 2 ^ k) by (apply Z.pow_le_mono_r; lia). assert (2 ^ k <= 2 ^ 62) by (apply Z.pow_le_mono_r; lia). change (2 ^ 61) with 2305843009213693952 in *. change (2 ^ 62) with 4611686018427387904 in *. split; [auto|]. split; [constructor; [unfold is_word; change (2 ^ 64) with 18446744073709551616; lia|constructor]|]. split; [lia|]. unfold in_fixnum_range. change (2 ^ 61) with 2305843009213693952. lia. }
  split; [apply (C 61); lia|]. split; [apply (C 62); lia|]. split; [cbn [moderate nwords]; lia|]. split; [cbn; lia|]. split; [cbn; lia|]. split; [vm_compute; reflexivity|]. split; [vm_compute; reflexivity|]. split; vm_compute; reflexivity.
Qed.

(** ** Cases: 1/6 + 3/10 = 7/15, -3/4 - 1/4 = -1, 2/3 * 9/4 = 3/2, (2/3) / (-4) = -1/6, round 5/2 = 2 *)
Definition q_ (n d : Z) : exact := ERat (Fix n) (Fix d).
Lemma q_wf n d : -1000 < n < 1000 -> 1 < d < 1000 -> Z.gcd n d = 1 -> wf (q_ n d).
Proof. intros. cbn [wf q_]. split; [apply can_fix; lia|]. split; [apply can_fix; lia|]. cbn [int_of]. split; [lia|auto]. Qed.
Example rat_ex1 : wf (q_ 1 6) /\ wf (q_ 3 10) /\ moderate (q_ 1 6) /\ Z.odd (den (q_ 2 3)) = true /\ rat_add (q_ 1 6) (q_ 3 10) = Ok (q_ 7 15) /\ rat_sub (q_ (-3) 4) (q_ 1 4) = Ok (EInt (Fix (-1))).
Proof. split; [apply q_wf; [lia|lia|reflexivity]|]. split; [apply q_wf; [lia|lia|reflexivity]|]. split; [cbn; lia|]. split; [reflexivity|]. split; vm_compute; reflexivity. Qed.
Example rat_ex2 : rat_mul (q_ 2 3) (q_ 9 4) = Ok (q_ 3 2) /\ rat_div (q_ 2 3) (EInt (Fix (-4))) = Ok (q_ (-1) 6) /\ rat_round (q_ 5 2) Round = Ok (Fix 2) /\ rat_round (q_ (-7) 2) Floor = Ok (Fix (-4)) /\ rat_div (q_ 2 3) (EInt (Fix 0)) = Err.
Proof. repeat split; vm_compute; reflexivity. Qed.
Example rat_ex3 : ~ (minus_unit (rat_of (q_ (-3) 4) - rat_of (q_ 1 4))%Q /\ (2 ^ 61 | den (q_ (-3) 4) * den (q_ 1 4))).
Proof. intros (_ & D). change (den (q_ (-3) 4) * den (q_ 1 4)) with 16 in D. apply Z.divide_pos_le in D; [|lia]. change (2 ^ 61) with 2305843009213693952 in D. lia. Qed.

Print Assumptions rat_add_partial.
Print Assumptions rat_sub_partial.
Print Assumptions rat_mul_partial.
Print Assumptions rat_div_partial.
Print Assumptions rat_arith_nonnegative.
Print Assumptions rat_arith_odd.
Print Assumptions rat_negate_exact.
Print Assumptions rat_abs_exact.
Print Assumptions rat_reciprocal_exact.
Print Assumptions rat_div_by_zero.
Print Assumptions rat_reciprocal_zero.
Print Assumptions rat_sign_exact.
Print Assumptions rat_unique.
Print Assumptions rat_round_exact.
Print Assumptions rat_div_refuted.
