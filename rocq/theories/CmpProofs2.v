(** Proofs about CmpModel: exact numbers *)
From Coq Require Import ZArith List Bool Lia.
From Verif Require Import Outcome BignumModel BignumProofs2 IntModel IntSpec IntProofs RatModel RatSpec FloModel FloSpec FloProofs FloProofs3 FloProofs7 InexModel InexProofs CmpModel CmpProofs.
Import ListNotations.
Local Open Scope Z_scope.
Ltac Zify.zify_post_hook ::= idtac.

(** the double of a fixnum, in units *)
Lemma fix_units v : in_fixnum_range v -> exists X m k, ext_of (get_double (EInt (Fix v))) = F X /\ rnd (Z.abs v * c1074) 1 = Fin m k /\ finite_double m k /\
  X = (if v <? 0 then - units m k else units m k).
Proof.
  intros R. unfold in_fixnum_range in R. destruct (fix_fin (Z.abs v)) as (m & k & E & D). { change (2 ^ 61) with 2305843009213693952 in *. lia. }
  exists (if v <? 0 then - units m k else units m k), m, k. cbn [get_double]. unfold int_to_double. rewrite E. split; auto.
Qed.
Lemma round_units z : (z < 0 -> exists w, 0 < w /\ (ext_of (z <? 0, rnd (Z.abs z) 1) = F (- w) \/ ext_of (z <? 0, rnd (Z.abs z) 1) = NegInf)) /\
  (0 < z -> (exists m k, 0 < units m k /\ rnd z 1 = Fin m k /\ ext_of (z <? 0, rnd (Z.abs z) 1) = F (units m k)) \/ ext_of (z <? 0, rnd (Z.abs z) 1) = PosInf) /\
  (z = 0 -> ext_of (z <? 0, rnd (Z.abs z) 1) = F 0).
Proof.
  split; [|split]; intros H.
  - rewrite (proj2 (Z.ltb_lt z 0) H). destruct (rnd (Z.abs z) 1) as [m k|] eqn:E.
    + exists (units m k). split; [eapply (rnd_pos (Z.abs z)); [lia|exact E]|]. left. reflexivity.
    + exists 1. split; [lia|]. now right.
  - rewrite (proj2 (Z.ltb_ge z 0)) by lia. rewrite Z.abs_eq by lia. destruct (rnd z 1) as [m k|] eqn:E; [left|now right]. exists m, k. split; [eapply (rnd_pos z); [lia|exact E]|]. auto.
  - subst. reflexivity.
Qed.
(** y * 2e-52 *)
Lemma err_units Y : 0 <= Y -> (exists m k, finite_double m k /\ Y = units m k) ->
  exists m k, rnd (Y * 5391989333430128) (2 ^ 224) = Fin m k /\ finite_double m k /\ 0 <= units m k <= Y.
Proof.
  intros H (m0 & k0 & D0 & E0). pose proof (rnd_double _ _ D0) as R0. assert (P : 0 < 2 ^ 224) by reflexivity.
  assert (L : fle (rnd (Y * 5391989333430128) (2 ^ 224)) (rnd Y 1)). { apply rnd_le; [exact P|reflexivity|lia|exact H|]. assert (5391989333430128 <= 2 ^ 224) by (intros C; discriminate C). set (p := 2 ^ 224) in *. clearbody p. nia. }
  rewrite E0, R0 in L. rewrite <- E0 in L. destruct (rnd (Y * 5391989333430128) (2 ^ 224)) as [m k|] eqn:E; [|contradiction]. cbn [fle] in L. exists m, k. split; auto. apply rnd_is_double in E; [|exact P|lia]. split; auto. split; [apply (units_nonneg _ _ (proj1 E))|lia].
Qed.
Lemma gap_half m k : -1074 <= k -> ulp k <= 2 * gap_below m k.
Proof. intros H. unfold gap_below. pose proof (ulp_pos k H). destruct (m =? 2 ^ 52); cbn [andb]; [|lia]. destruct (Z.ltb_spec (-1074) k); [|lia]. pose proof (ulp_S (k - 1) ltac:(lia)) as U. replace (k - 1 + 1) with k in U by lia. lia. Qed.

Lemma mul_cmp x n d : canonical x -> canonical n -> canonical d -> nwords x + nwords d <= MAX_DIGITS ->
  (do p <- num_mul x d; num_cmp p n) = Ok (cmpz (int_of x * int_of d) (int_of n)).
Proof. intros Cx Cn Cd B. destruct (num_mul_ok x d Cx Cd B) as (p & -> & Cp & Vp). cbn [bind]. rewrite num_cmp_ok by auto. now rewrite Vp. Qed.
Lemma cmpz_lt a b : a < b -> cmpz a b = -1.
Proof. intros. unfold cmpz. now rewrite (proj2 (Z.compare_lt_iff a b)). Qed.
Lemma cmpz_gt a b : b < a -> cmpz a b = 1.
Proof. intros. unfold cmpz. now rewrite (proj2 (Z.compare_gt_iff a b)). Qed.
Lemma fle_units m k m' k' : fle (Fin m k) (Fin m' k') -> units m k <= units m' k'. Proof. exact (fun x => x). Qed.

Section fixrat.
Variables (v : Z) (n d : num).
Hypotheses (Rv : in_fixnum_range v) (Cn : canonical n) (Cd : canonical d) (D1 : 0 < int_of d) (B : 1 + nwords d <= MAX_DIGITS).
Lemma fix_rat_M : (do p <- num_mul (Fix v) d; num_cmp p n) = Ok (cmpz (v * int_of d) (int_of n)).
Proof. exact (mul_cmp (Fix v) n d Rv Cn Cd B). Qed.

Lemma fix_rat_pos : 0 < int_of n -> fix_rat_cmp v n d = Ok (cmpz (v * int_of d) (int_of n)).
Proof.
  pose proof fix_rat_M as M. intros Hn. unfold fix_rat_cmp. destruct (fix_units v Rv) as (X & mx & kx & EX & RX & DX & VX). rewrite EX. cbn [get_double]. rewrite (proj2 (Z.ltb_ge (int_of n) 0)) by lia. rewrite Z.abs_eq by lia.
  pose proof (fun w H => rat_int_mono (int_of n) (int_of d) w Hn D1 H) as MO. pose proof (units_nonneg _ _ (proj1 DX)) as UX.
  destruct (rat_to_double (int_of n) (int_of d)) as [m k|] eqn:EY.
  2: { cbn [ext_of ext_err ext_sub ext_neg ext_lt]. exact M. }
  assert (DY : finite_double m k) by (eapply rat_fin_double; [exact Hn|exact D1|exact EY]). pose proof (units_nonneg _ _ (proj1 DY)) as UY. cbn [ext_of]. change (sv m k) with (units m k). set (Y := units m k) in *.
  cbn [ext_err]. rewrite (proj2 (Z.ltb_ge Y 0)), (Z.abs_eq Y) by lia. destruct (err_units Y UY) as (me & ke & -> & De & Ue). { exists m, k. auto. }
  cbn [ext_of ext_neg]. cbn [ext_sub]. change (sv me ke) with (units me ke). set (e := units me ke) in *.
  destruct (round_units (X - Y)) as (RN & RP & RZ).
  destruct (Z.lt_trichotomy (X - Y) 0) as [L|[L|L]].
  - assert (LT : v * int_of d < int_of n). { apply Z.nle_gt. intros G. assert (Pv : 0 <= v) by nia. rewrite (proj2 (Z.ltb_ge v 0)) in VX by lia. rewrite (Z.abs_eq v) in RX by lia. destruct (MO v Pv) as (_ & M2). specialize (M2 G). rewrite RX in M2. apply fle_units in M2. fold Y in M2. lia. }
    rewrite (cmpz_lt _ _ LT) in M |- *. destruct (RN L) as (w & Pw & [->| ->]); cbn [ext_lt].
    + destruct (Z.ltb_spec (- w) (- e)); auto. destruct (Z.ltb_spec e (- w)); [lia|]. exact M.
    + reflexivity.
  - rewrite (RZ L). cbn [ext_lt]. rewrite (proj2 (Z.ltb_ge 0 (- e))), (proj2 (Z.ltb_ge e 0)) by lia. exact M.
  - assert (GT : int_of n < v * int_of d). { apply Z.nle_gt. intros G. assert (Pv : 0 < v). { apply Z.nle_gt. intros Q. destruct (Z.ltb_spec v 0); [lia|]. assert (v = 0) by lia. subst v. change (Z.abs 0 * c1074) with 0 in RX. rewrite rnd_zero in RX by lia. injection RX as <- <-. change (units 0 (-1074)) with 0 in *. lia. } rewrite (proj2 (Z.ltb_ge v 0)) in VX by lia. rewrite (Z.abs_eq v) in RX by lia. destruct (MO v ltac:(lia)) as (M1 & _). specialize (M1 G). rewrite RX in M1. apply fle_units in M1. fold Y in M1. lia. }
    rewrite (cmpz_gt _ _ GT) in M |- *. destruct (RP L) as [(mw & kw & Pw & _ & ->)| ->]; cbn [ext_lt].
    + rewrite (proj2 (Z.ltb_ge (units mw kw) (- e))) by lia. destruct (Z.ltb_spec e (units mw kw)); auto; exact M.
    + reflexivity.
Qed.
(** against a negative ratnum the exact comparison is never reached *)
Lemma fix_rat_neg : int_of n < 0 ->
  (ext_of (get_double (EInt (Fix v))) <> ext_of (get_double (ERat n d)) \/ v = 0 -> fix_rat_cmp v n d = Ok (cmpz (v * int_of d) (int_of n))) /\
  (ext_of (get_double (EInt (Fix v))) = ext_of (get_double (ERat n d)) -> v <> 0 -> fix_rat_cmp v n d = Ok (-1)).
Proof.
  pose proof fix_rat_M as M. intros Hn. unfold fix_rat_cmp. destruct (fix_units v Rv) as (X & mx & kx & EX & RX & DX & VX). rewrite EX. cbn [get_double]. rewrite (proj2 (Z.ltb_lt (int_of n) 0)) by lia. set (N := Z.abs (int_of n)). assert (HN : 0 < N) by (unfold N; lia). assert (EN : int_of n = - N) by (unfold N; lia).
  pose proof (fun w H => rat_int_mono N (int_of d) w HN D1 H) as MO. pose proof (units_nonneg _ _ (proj1 DX)) as UX.
  destruct (rat_to_double N (int_of d)) as [m k|] eqn:EY.
  2: { cbn [ext_of ext_err ext_sub ext_neg ext_lt]. split; [|discriminate]. intros _. rewrite cmpz_gt; auto. rewrite EN. destruct (Z.le_gt_cases 0 v) as [Pv|Pv]; [nia|]. apply Z.nle_gt. intros G. destruct (MO (- v) ltac:(lia)) as (_ & M2). replace (- v) with (Z.abs v) in M2 by lia. rewrite RX in M2. apply M2. nia. }
  assert (DY : finite_double m k) by (eapply rat_fin_double; [exact HN|exact D1|exact EY]). pose proof (units_nonneg _ _ (proj1 DY)) as UY. cbn [ext_of]. change (sv m k) with (units m k).
  cbn [ext_err]. destruct (err_units (units m k) UY) as (me & ke & Ee & De & Ue). { exists m, k. auto. }
  assert (Er : ext_of (- units m k <? 0, rnd (Z.abs (- units m k) * 5391989333430128) (2 ^ 224)) = F (- units me ke)).
  { rewrite Z.abs_opp, Z.abs_eq by lia. rewrite Ee. cbn [ext_of]. change (sv me ke) with (units me ke). destruct (Z.ltb_spec (- units m k) 0); auto. f_equal. lia. }
  rewrite Er. cbn [ext_neg ext_sub]. rewrite Z.opp_involutive.
  destruct (round_units (X - - units m k)) as (RN & RP & RZ). set (Y := units m k) in *.
  destruct (Z.lt_trichotomy (X - - Y) 0) as [L|[L|L]].
  - split; [|intros Q; injection Q; lia]. intros _. rewrite cmpz_lt.
    { destruct (RN L) as (w & Pw & [->| ->]); cbn [ext_lt]; auto. rewrite (proj2 (Z.ltb_lt (- w) (units me ke))) by lia. reflexivity. }
    rewrite EN. destruct (Z.ltb_spec v 0) as [Pv|Pv]; [|lia]. apply Z.nle_gt. intros G. destruct (MO (- v) ltac:(lia)) as (M1 & _). replace (- v) with (Z.abs v) in M1 by lia. rewrite RX in M1. specialize (M1 ltac:(nia)). apply fle_units in M1. fold Y in M1. lia.
  - rewrite (RZ L). cbn [ext_lt]. split.
    + intros [Q| ->]; [exfalso; apply Q; f_equal; lia|]. change (Z.abs 0 * c1074) with 0 in RX. rewrite rnd_zero in RX by lia. injection RX as <- <-. change (units 0 (-1074)) with 0 in *. assert (X = 0) by exact VX. assert (Y = 0) by lia. rewrite (proj2 (Z.ltb_ge 0 (units me ke))), (proj2 (Z.ltb_ge (- units me ke) 0)) by lia. exact M.
    + intros _ NV. assert (PY : c1074 <= Y). { assert (LX : fle (rnd (1 * c1074) 1) (rnd (Z.abs v * c1074) 1)). { apply rnd_le; [reflexivity|reflexivity|apply c_nn; discriminate|apply c_nn; lia|]. rewrite !Z.mul_1_r. apply Z.mul_le_mono_nonneg_r; [apply p_nn|lia]. } destruct rnd_one as (m1 & k1 & E1 & U1). rewrite E1, RX in LX. apply fle_units in LX. rewrite U1 in LX. assert (units mx kx = Y) by (destruct (v <? 0); lia). lia. }
      assert (PE : 0 < units me ke). { assert (L1 : fle (rnd 1 1) (rnd (Y * 5391989333430128) (2 ^ 224))). { apply rnd_le; [reflexivity|reflexivity|discriminate|lia|]. assert (2 ^ 224 <= c1074) by (apply Z.pow_le_mono_r; discriminate || reflexivity). rewrite Z.mul_1_l, Z.mul_1_r. assert (PA : 0 < 2 ^ 224) by reflexivity. clear - PY H PA. set (a := 2 ^ 224) in *. set (b := c1074) in *. clearbody a b. lia. } rewrite Ee in L1. change (rnd 1 1) with (Fin 1 (-1074)) in L1. apply fle_units in L1. change (units 1 (-1074)) with 1 in L1. lia. }
      rewrite (proj2 (Z.ltb_lt 0 (units me ke))) by lia. reflexivity.
  - split; [|intros Q; injection Q; lia]. intros _. rewrite cmpz_gt.
    { destruct (RP L) as [(mw & kw & Pw & Ew & ->)| ->]; cbn [ext_lt]; auto.
      assert (LE : units me ke <= units mw kw).
      { assert (Q : fle (rnd (Y * 5391989333430128) (2 ^ 224)) (rnd (X - - Y) 1)).
        { apply rnd_le; [reflexivity|reflexivity|lia|lia|]. assert (Y <= (X - - Y) * 2 ^ 56).
          { destruct (Z.le_gt_cases 0 X) as [PX|PX]; [assert (1 <= 2 ^ 56) by discriminate; nia|]. assert (NV : v < 0) by (destruct (Z.ltb_spec v 0); lia). rewrite (proj2 (Z.ltb_lt v 0) NV) in VX.
            pose proof (gap_below_ok m k mx kx (proj1 DY) (proj1 DX) ltac:(fold Y; lia)) as G. pose proof (gap_half m k ltac:(apply DY)) as G2. pose proof DY as ((A1 & (A2 & A3) & _) & _). pose proof (ulp_pos k A1) as P. assert (YU : Y < 2 ^ 53 * ulp k) by (unfold Y; rewrite units_ulp; apply Z.mul_lt_mono_pos_r; auto). fold Y in G. change (2 ^ 53) with 9007199254740992 in *. change (2 ^ 56) with 72057594037927936. lia. }
          change (2 ^ 224) with (2 ^ 56 * 2 ^ 168). assert (5391989333430128 <= 2 ^ 168) by discriminate. assert (Y * 5391989333430128 <= Y * 2 ^ 168) by (apply Z.mul_le_mono_nonneg_l; lia). assert (Y * 2 ^ 168 <= (X - - Y) * 2 ^ 56 * 2 ^ 168) by (apply Z.mul_le_mono_nonneg_r; [discriminate|assumption]). rewrite Z.mul_1_r, Z.mul_assoc. lia. }
        rewrite Ee, Ew in Q. now apply fle_units in Q. }
      rewrite (proj2 (Z.ltb_ge (units mw kw) (units me ke))) by lia. rewrite (proj2 (Z.ltb_lt (- units me ke) (units mw kw))) by lia. reflexivity. }
    rewrite EN. destruct (Z.ltb_spec v 0) as [Pv|Pv]; [|nia]. apply Z.nle_gt. intros G. destruct (MO (- v) ltac:(lia)) as (_ & M2). replace (- v) with (Z.abs v) in M2 by lia. rewrite RX in M2. specialize (M2 ltac:(nia)). apply fle_units in M2. fold Y in M2. lia.
Qed.
End fixrat.
