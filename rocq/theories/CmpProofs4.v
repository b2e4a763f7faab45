(** Proofs about CmpModel: integers against flonums *)
From Coq Require Import ZArith QArith List Bool Lia.
From Verif Require Import Outcome BignumModel BignumProofs2 IntModel IntSpec IntProofs RatModel RatSpec FloModel FloSpec FloProofs FloProofs3 FloProofs7 InexModel InexProofs InexProps CmpModel CmpSpec CmpProofs CmpProofs2 CmpProofs3.
Import ListNotations.
Local Open Scope Z_scope.
Ltac Zify.zify_post_hook ::= idtac.

(** the sign of a difference of doubles *)
Lemma sub_sign A B : below (ext_sub A B) = ext_lt A B /\ above (ext_sub A B) = ext_lt B A.
Proof.
  destruct A as [|x|], B as [|y|]; try (split; reflexivity). cbn [ext_sub below above]. destruct (round_units (x - y)) as (RN & RP & RZ). cbn [ext_lt].
  destruct (Z.lt_trichotomy (x - y) 0) as [L|[L|L]].
  - rewrite (proj2 (Z.ltb_lt x y)), (proj2 (Z.ltb_ge y x)) by lia. destruct (RN L) as (w & Pw & [->| ->]); cbn [ext_lt]; split; auto; [apply Z.ltb_lt; lia|apply Z.ltb_ge; lia].
  - rewrite (RZ L). rewrite (proj2 (Z.ltb_ge x y)), (proj2 (Z.ltb_ge y x)) by lia. auto.
  - rewrite (proj2 (Z.ltb_ge x y)), (proj2 (Z.ltb_lt y x)) by lia. destruct (RP L) as [(m & k & Pw & _ & ->)| ->]; cbn [ext_lt]; split; auto; [apply Z.ltb_ge; lia|apply Z.ltb_lt; lia].
Qed.
(** ** Integer objects *)
Lemma words_of_ok f : forall z, 0 <= z < 2 ^ (64 * Z.of_nat f) -> Forall is_word (words_of f z) /\ value (words_of f z) = z /\ (0 < z -> last (words_of f z) 0 <> 0).
Proof.
  induction f as [|f IH]; intros z H. { change (2 ^ (64 * Z.of_nat 0)) with 1 in H. cbn. split; [constructor|]. split; lia. }
  cbn [words_of]. destruct (Z.eqb_spec z 0) as [->|N]. { split; [constructor|]. split; [reflexivity|lia]. }
  assert (P : 0 < 2 ^ 64) by reflexivity. pose proof (Z.div_mod z (2 ^ 64) ltac:(lia)) as DM. pose proof (Z.mod_pos_bound z (2 ^ 64) P) as MB.
  assert (Q : 0 <= z / 2 ^ 64 < 2 ^ (64 * Z.of_nat f)). { split; [apply Z.div_pos; lia|]. apply Z.div_lt_upper_bound; auto. rewrite <- Z.pow_add_r by lia. replace (64 + 64 * Z.of_nat f) with (64 * Z.of_nat (S f)) by lia. lia. }
  destruct (IH _ Q) as (F1 & V1 & L1). split; [constructor; auto|]. cbn [value]. split; [rewrite V1; lia|]. intros _. destruct (words_of f (z / 2 ^ 64)) as [|w t] eqn:E.
  - cbn [value] in V1. cbn [last]. rewrite <- V1 in DM. lia.
  - change (last (w :: t) 0 <> 0). apply L1. destruct (Z.eq_dec (z / 2 ^ 64) 0) as [Z0|]; [|lia]. rewrite Z0 in E. destruct f; discriminate E.
Qed.
Lemma int_object_ok z : Z.abs z < 2 ^ 1088 -> canonical (int_object z) /\ int_of (int_object z) = z.
Proof.
  intros H. unfold int_object. destruct (_ && _) eqn:E.
  - apply andb_prop in E as (A & B). apply Z.leb_le in A. apply Z.ltb_lt in B. split; [split; auto|reflexivity].
  - assert (R : ~ in_fixnum_range z). { intros (A & B). apply Z.leb_le in A. apply Z.ltb_lt in B. rewrite A, B in E. discriminate. }
    destruct (words_of_ok 17 (Z.abs z)) as (F1 & V1 & L1). { change (64 * Z.of_nat 17) with 1088. split; [apply Z.abs_nonneg|exact H]. }
    assert (N : z <> 0). { intros ->. apply R. split; [discriminate|reflexivity]. }
    assert (I : int_of (Bn (Big (Z.sgn z) (words_of 17 (Z.abs z)))) = z). { cbn [int_of sign words]. rewrite V1. lia. }
    split; auto. split; [cbn [sign]; lia|]. cbn [words]. split; auto. split; [apply L1; lia|]. rewrite I. exact R.
Qed.
(** ** Order of an integer's double and another double *)
Lemma int_double n : canonical n -> get_double (EInt n) = (int_of n <? 0, rnd (Z.abs (int_of n) * c1074) 1).
Proof. intros C. destruct (int_nearest n C) as (s & E & ->). exact E. Qed.
Lemma flo_int_mono n neg m k : finite_double m k -> let z := if neg : bool then - units m k else units m k in let X := ext_of (n <? 0, rnd (Z.abs n * c1074) 1) in
  (n * c1074 <= z -> ext_lt (F z) X = false) /\ (z <= n * c1074 -> ext_lt X (F z) = false).
Proof.
  intros D z X. pose proof (rnd_double _ _ D) as RD. pose proof (units_nonneg _ _ (proj1 D)) as U. pose proof c_pos as P.
  assert (M1 : Z.abs n * c1074 <= units m k -> fle (rnd (Z.abs n * c1074) 1) (Fin m k)). { intros H. rewrite <- RD. apply rnd_le; [reflexivity|reflexivity|apply c_nn; lia|exact U|]. rewrite !Z.mul_1_r. exact H. }
  assert (M2 : units m k <= Z.abs n * c1074 -> fle (Fin m k) (rnd (Z.abs n * c1074) 1)). { intros H. rewrite <- RD. apply rnd_le; [reflexivity|reflexivity|exact U|apply c_nn; lia|]. rewrite !Z.mul_1_r. exact H. }
  assert (NN : forall m' k', rnd (Z.abs n * c1074) 1 = Fin m' k' -> 0 <= units m' k'). { intros m' k' E. apply rnd_is_double in E; [apply (units_nonneg _ _ (proj1 E))|reflexivity|apply c_nn; lia]. }
  assert (Z0 : n = 0 -> rnd (Z.abs n * c1074) 1 = Fin 0 (-1074)). { intros ->. change (Z.abs 0 * c1074) with 0. apply rnd_zero. reflexivity. }
  unfold X, z. destruct (Z.ltb_spec n 0) as [Ln|Ln]; [rewrite Z.abs_neq in * by lia|rewrite Z.abs_eq in * by lia]; set (c := c1074) in *; clearbody c; set (u := units m k) in *.
  - destruct (rnd (- n * c) 1) as [m' k'|] eqn:E; cbn [ext_of ext_lt].
    + change (sv m' k') with (units m' k'). specialize (NN _ _ eq_refl). destruct neg; cbv iota.
      * split; intros H; apply Z.ltb_ge; [assert (A : u <= - n * c) by lia; specialize (M2 A); apply fle_units in M2; fold u in M2; lia|assert (A : - n * c <= u) by lia; specialize (M1 A); apply fle_units in M1; fold u in M1; lia].
      * split; intros H; apply Z.ltb_ge; [lia|]. exfalso. nia.
    + split; auto. intros H. exfalso. destruct neg; cbv iota in H; [apply M1; lia|nia].
  - destruct (rnd (n * c) 1) as [m' k'|] eqn:E; cbn [ext_of ext_lt].
    + change (sv m' k') with (units m' k'). specialize (NN _ _ eq_refl). destruct neg; cbv iota.
      * split; intros H; apply Z.ltb_ge; [|lia]. assert (n = 0) by nia. specialize (Z0 H0). injection Z0 as -> ->. change (units 0 (-1074)) with 0. nia.
      * split; intros H; apply Z.ltb_ge; [specialize (M1 H); apply fle_units in M1; exact M1|specialize (M2 H); apply fle_units in M2; exact M2].
    + split; auto. intros H. exfalso. destruct neg; cbv iota in H; [assert (n = 0) by nia; specialize (Z0 H0); discriminate|apply M1; lia].
Qed.
(** integers with at most 53 significant bits are doubles *)
Lemma dp_exact N : 0 <= N -> N = 0 \/ double_precision N = true -> N < 2 ^ 62 -> exists m k, rnd (N * c1074) 1 = Fin m k /\ units m k = N * c1074.
Proof.
  intros H0 HD HB. assert (S : exists m k, finite_double m k /\ units m k = N * c1074).
  { destruct (Z.lt_ge_cases N (2 ^ 53)) as [L|L]; [apply small_int; lia|]. assert (PN : 0 < N) by (change (2 ^ 53) with 9007199254740992 in L; lia). destruct HD as [->|HD]; [lia|].
    assert (LG : 53 <= Z.log2 N) by (apply Z.log2_le_pow2; auto). assert (LH : Z.log2 N < 62) by (apply Z.log2_lt_pow2; auto). pose proof (dp_divides N (Z.log2 N - 52) PN eq_refl ltac:(lia) HD) as (a & Ea). pose proof (Z.log2_spec N PN) as (L1 & L2).
    exists a, (Z.log2 N - 52). pose proof (pow2_pos (Z.log2 N - 52) ltac:(lia)) as Pe. assert (E1 : 2 ^ Z.log2 N = 2 ^ 52 * 2 ^ (Z.log2 N - 52)) by (rewrite <- Z.pow_add_r by lia; f_equal; lia). assert (E2 : 2 ^ Z.succ (Z.log2 N) = 2 ^ 53 * 2 ^ (Z.log2 N - 52)) by (rewrite <- Z.pow_add_r by lia; f_equal; lia). rewrite E1 in L1. rewrite E2 in L2.
    split.
    - split; [|lia]. split; [lia|]. set (e := 2 ^ (Z.log2 N - 52)) in *. clearbody e. assert (2 ^ 52 <= a) by (apply Z.mul_le_mono_pos_r with e; auto; lia). assert (a < 2 ^ 53) by (apply Z.mul_lt_mono_pos_r with e; auto; lia). split; [|now right]. change (2 ^ 52) with 4503599627370496 in *. lia.
    - unfold units. rewrite Z.pow_add_r by lia. rewrite Z.mul_assoc. now rewrite <- Ea. }
  destruct S as (m & k & D & U). exists m, k. split; auto. rewrite <- U. now apply rnd_double.
Qed.
(** doubles from 2^53 on are integers *)
Lemma big_double_int m k : finite_double m k -> 2 ^ 53 * c1074 <= units m k -> units m k mod c1074 = 0 /\ units m k / c1074 < 2 ^ 1088.
Proof.
  intros ((A & (B1 & B2) & _) & K) H. assert (K1 : 1 <= k). { apply Z.le_ngt. intros L. assert (X : units m k < 2 ^ 53 * c1074). { unfold units. apply Z.lt_le_trans with (2 ^ 53 * 2 ^ (k + 1074)); [apply Z.mul_lt_mono_pos_r; auto; apply pow2_pos; lia|]. apply Z.mul_le_mono_nonneg_l; [discriminate|]. apply Z.pow_le_mono_r; lia. } lia. }
  assert (E : units m k = m * 2 ^ k * c1074) by (unfold units; rewrite Z.pow_add_r by lia; ring). pose proof c_pos as P. rewrite E. split; [apply Z.mod_mul; lia|]. rewrite Z.div_mul by lia. apply Z.lt_le_trans with (2 ^ 53 * 2 ^ k); [apply Z.mul_lt_mono_pos_r; auto; apply pow2_pos; lia|]. rewrite <- Z.pow_add_r by lia. apply Z.pow_le_mono_r; lia.
Qed.
Lemma order_units z n : order (z # Pos.pow 2 1074) (inject_Z n) = cmpz z (n * c1074).
Proof. unfold inject_Z. rewrite order_z, Pos2Z.inj_pow, Z.mul_1_r. reflexivity. Qed.
(** the comparison after the screening by doubles *)
Lemma equal_double n neg m k r2r : canonical n -> finite_double m k -> let z := if neg : bool then - units m k else units m k in
  F z = ext_of (int_of n <? 0, rnd (Z.abs (int_of n) * c1074) 1) -> 2 ^ 53 <= Z.abs (int_of n) ->
  exists o, exact_of r2r neg m k = EInt o /\ canonical o /\ cmpz (int_of o) (int_of n) = cmpz z (int_of n * c1074).
Proof.
  intros C D z E B. pose proof c_pos as P. pose proof (units_nonneg _ _ (proj1 D)) as U. destruct (rnd (Z.abs (int_of n) * c1074) 1) as [m' k'|] eqn:R; [|destruct (int_of n <? 0); discriminate].
  pose proof R as D'. apply rnd_is_double in D'; [|reflexivity|apply c_nn; lia]. pose proof (units_nonneg _ _ (proj1 D')) as U'. cbn [ext_of] in E. injection E as E. change (sv m' k') with (units m' k') in E. unfold z in E.
  assert (EU : units m k = units m' k') by (destruct neg, (int_of n <? 0); lia).
  assert (G : 2 ^ 53 * c1074 <= units m k).
  { destruct (double_pow 1127 ltac:(lia) ltac:(lia)) as (m3 & k3 & D3 & U3). rewrite (c_split 53 1127) in U3 by (reflexivity || discriminate). assert (L : fle (rnd (units m3 k3) 1) (rnd (Z.abs (int_of n) * c1074) 1)). { apply rnd_le; [reflexivity|reflexivity|apply (units_nonneg _ _ (proj1 D3))|apply c_nn; lia|]. rewrite U3, !Z.mul_1_r. apply Z.mul_le_mono_nonneg_r; [apply p_nn|exact B]. } rewrite (rnd_double _ _ D3), R in L. apply fle_units in L. rewrite U3, <- EU in L. exact L. }
  destruct (big_double_int m k D G) as (M0 & QB). unfold exact_of. change (sv m k) with (units m k). rewrite (proj2 (Z.eqb_eq _ _) M0). set (w := (if neg then -1 else 1) * (units m k / c1074)).
  assert (Q0 : 0 <= units m k / c1074) by (apply Z.div_pos; lia). assert (AW : Z.abs w < 2 ^ 1088). { replace (Z.abs w) with (units m k / c1074) by (unfold w; destruct neg; lia). exact QB. }
  destruct (int_object_ok w AW) as (Co & Vo). exists (int_object w). split; auto. split; auto. rewrite Vo. pose proof (Z.div_mod (units m k) c1074 ltac:(lia)) as DM. rewrite M0, Z.add_0_r in DM. assert (ZW : z = w * c1074) by (unfold z, w; clear - DM; set (c := c1074) in *; clearbody c; set (q := units m k / c) in *; clearbody q; rewrite DM; destruct neg; ring). rewrite ZW, !cmpz_sgn. replace (w * c1074 - int_of n * c1074) with ((w - int_of n) * c1074) by apply Z.mul_sub_distr_r. rewrite Z.sgn_mul, (Z.sgn_pos c1074) by exact P. lia.
Qed.
Lemma screen n neg m k : canonical n -> finite_double m k -> let z := if neg : bool then - units m k else units m k in let X := ext_of (get_double (EInt n)) in
  (ext_lt (F z) X = true -> cmpz z (int_of n * c1074) = -1) /\ (ext_lt X (F z) = true -> cmpz z (int_of n * c1074) = 1) /\
  (ext_lt (F z) X = false -> ext_lt X (F z) = false -> F z = X).
Proof.
  intros C D z X. unfold X. rewrite int_double by auto. destruct (flo_int_mono (int_of n) neg m k D) as (M1 & M2). fold z in M1, M2. clear X. set (Y := ext_of (int_of n <? 0, rnd (Z.abs (int_of n) * c1074) 1)) in *. clearbody Y. split; [|split].
  - intros L. apply cmpz_lt. apply Z.nle_gt. intros G. rewrite M1 in L by auto. discriminate.
  - intros L. apply cmpz_gt. apply Z.nle_gt. intros G. rewrite M2 in L by auto. discriminate.
  - destruct Y as [|y|]; cbn [ext_lt]; intros A B; try discriminate. apply Z.ltb_ge in A, B. f_equal. lia.
Qed.
Lemma dp_case v : in_fixnum_range v -> let X := ext_of (get_double (EInt (Fix v))) in
  if int_double_precision (Fix v) then X = F (v * c1074) else 2 ^ 53 <= Z.abs v.
Proof.
  intros R X. unfold int_double_precision. cbn [int_of]. unfold in_fixnum_range in R. assert (E61 : 2 ^ 61 = 2305843009213693952) by reflexivity. assert (E62 : 2 ^ 62 = 4611686018427387904) by reflexivity. destruct (_ || _) eqn:E.
  - destruct (dp_exact (Z.abs v) (Z.abs_nonneg v)) as (m & k & Rm & U); [|lia|].
    + apply orb_prop in E as [E|E]; [left; apply Z.eqb_eq in E; lia|now right].
    + unfold X. cbn [get_double]. unfold int_to_double. rewrite Rm. cbn [ext_of]. change (sv m k) with (units m k). rewrite U. f_equal. clear. generalize c1074. intros c. destruct (Z.ltb_spec v 0); [rewrite Z.abs_neq by lia|rewrite Z.abs_eq by lia]; ring.
  - apply orb_false_elim in E as (E0 & E1). apply Z.eqb_neq in E0. unfold double_precision, hi_bit in E1. apply Z.ltb_ge in E1. assert (LL : 0 <= lo_bit (Z.abs v)) by apply Z.log2_nonneg. apply Z.log2_le_pow2; lia.
Qed.
Lemma ext_flo neg m k : ext_of (neg, Fin m k) = F (if neg then - units m k else units m k).
Proof. reflexivity. Qed.
Lemma cmp_int_object o n : canonical o -> canonical n -> exact_cmp (EInt o) (EInt n) = Ok (cmpz (int_of o) (int_of n)).
Proof. intros. cbn [exact_cmp]. now apply num_cmp_ok. Qed.
Lemma flo_int_ok r2r neg f n : canonical n -> flo_ok f -> flo_exact_cmp r2r neg f (EInt n) = Ok (xorder (flo_value neg f) (Finite (inject_Z (int_of n)))).
Proof.
  intros C O. destruct f as [m k|].
  - cbn [flo_value xorder flo_ok] in *. rewrite order_units. destruct (screen n neg m k C O) as (S1 & S2 & S3).
    destruct n as [v|b]; unfold flo_exact_cmp; cbv zeta; destruct (sub_sign (ext_of (neg, Fin m k)) (ext_of (get_double (EInt (Fix v))))) as (-> & ->) || destruct (sub_sign (ext_of (neg, Fin m k)) (ext_of (get_double (EInt (Bn b))))) as (-> & ->); rewrite ext_flo.
    + destruct (ext_lt (F _) _) eqn:L1; [now rewrite S1|]. destruct (ext_lt _ (F _)) eqn:L2; [now rewrite S2|]. specialize (S3 eq_refl eq_refl). pose proof (dp_case v C) as DP. cbv zeta in DP. destruct (int_double_precision (Fix v)); cbn [negb].
      * rewrite DP in S3. injection S3 as ->. cbn [int_of]. f_equal. symmetry. now apply cmpz_eq.
      * rewrite int_double in S3 by auto. destruct (equal_double (Fix v) neg m k r2r C O S3 DP) as (o & -> & Co & Vo). rewrite cmp_int_object by auto. now rewrite Vo.
    + destruct (ext_lt (F _) _) eqn:L1; [now rewrite S1|]. destruct (ext_lt _ (F _)) eqn:L2; [now rewrite S2|]. specialize (S3 eq_refl eq_refl). rewrite int_double in S3 by auto.
      destruct (equal_double (Bn b) neg m k r2r C O S3) as (o & -> & Co & Vo). { destruct C as (_ & _ & _ & R). unfold in_fixnum_range in R. change (2 ^ 53) with 9007199254740992. change (2 ^ 61) with 2305843009213693952 in R. lia. } rewrite cmp_int_object by auto. now rewrite Vo.
  - cbn [flo_value]. destruct n as [v|b]; unfold flo_exact_cmp; cbv zeta.
    + destruct (sub_sign (ext_of (neg, Inf)) (ext_of (get_double (EInt (Fix v))))) as (-> & ->). destruct (fix_units v C) as (X & _ & _ & -> & _). destruct neg; reflexivity.
    + destruct neg; reflexivity.
Qed.
Lemma fix_flo_ok r2r v neg f : canonical (Fix v) -> flo_ok f -> num_cmp_real r2r (Exact (EInt (Fix v))) (Flo neg f) = Ok (xorder (Finite (inject_Z v)) (flo_value neg f)).
Proof.
  intros C O. unfold num_cmp_real. cbv zeta. destruct (sub_sign (ext_of (get_double (EInt (Fix v)))) (ext_of (neg, f))) as (-> & ->). destruct f as [m k|].
  - cbn [flo_value xorder flo_ok] in *. rewrite <- order_opp, order_units. destruct (screen (Fix v) neg m k C O) as (S1 & S2 & S3). rewrite ext_flo. cbn [int_of] in S1, S2.
    destruct (ext_lt _ (F _)) eqn:L2; [now rewrite S2|]. destruct (ext_lt (F _) _) eqn:L1; [now rewrite S1|]. specialize (S3 eq_refl eq_refl). pose proof (dp_case v C) as DP. cbv zeta in DP. destruct (int_double_precision (Fix v)); cbn [negb].
    + rewrite DP in S3. injection S3 as ->. f_equal. rewrite (proj2 (cmpz_eq _ _) eq_refl). reflexivity.
    + rewrite int_double in S3 by auto. destruct (equal_double (Fix v) neg m k r2r C O S3 DP) as (o & -> & Co & Vo). rewrite cmp_int_object by auto. cbn [int_of] in *. rewrite <- Vo, cmpz_opp. reflexivity.
  - destruct (fix_units v C) as (X & _ & _ & -> & _). destruct neg; reflexivity.
Qed.
Lemma xorder_opp a b : - xorder a b = xorder b a.
Proof. destruct a, b; cbn [xorder]; try reflexivity. apply order_opp. Qed.
Lemma int_flo_ok r2r a b : real_ok a -> real_ok b -> int_or_flo a -> int_or_flo b -> num_cmp_real r2r a b = Ok (xorder (real_value a) (real_value b)).
Proof.
  intros Ha Hb Ia Ib. destruct a as [[n|]|neg f], b as [[n'|]|neg' f']; try contradiction; cbn [real_ok real_value rat_of wf] in *.
  - cbn [num_cmp_real exact_cmp]. rewrite num_cmp_ok by tauto. cbn [xorder]. unfold inject_Z. rewrite order_z, !Z.mul_1_r. now destruct n.
  - destruct n as [v|bb]; [apply fix_flo_ok; tauto|]. cbn [num_cmp_real]. rewrite flo_int_ok by tauto. cbn [bind]. rewrite xorder_opp. reflexivity.
  - cbn [num_cmp_real]. apply flo_int_ok; tauto.
  - cbn [num_cmp_real]. destruct (sub_sign (ext_of (neg, f)) (ext_of (neg', f'))) as (-> & ->). f_equal. destruct f as [m k|], f' as [m' k'|].
    + rewrite !ext_flo. cbn [ext_lt flo_value xorder]. rewrite order_z. set (x := if neg then _ else _). set (y := if neg' then _ else _). rewrite cmpz_sgn. rewrite <- Z.mul_sub_distr_r, Z.sgn_mul. set (p := Z.sgn (Z.pos _)). change p with 1. rewrite Z.mul_1_r. destruct (Z.ltb_spec x y); [lia|]. destruct (Z.ltb_spec y x); lia.
    + destruct neg, neg'; reflexivity.
    + destruct neg, neg'; reflexivity.
    + destruct neg, neg'; reflexivity.
Qed.
