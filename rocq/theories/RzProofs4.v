(** Proofs about RzModel: exact of a flonum is the simplest number that is rounded to it *)
From Coq Require Import ZArith Znumtheory QArith Qabs List Bool Lia Qcanon Lqa.
From Verif Require Import Outcome FloModel FloSpec FloProofs InexSpec RzModel RzSpec RzSpec2 RzProofs RzProofs2 RzProofs3.
Import ListNotations.
Local Open Scope Z_scope.
Ltac Zify.zify_post_hook ::= idtac.

(** widening an interval at the bottom keeps its simplest member if that is 1/N *)
Lemma widen lo lo' hi r : (0 < lo')%Q -> (lo' <= lo)%Q -> simplest (closed lo hi) r -> Qnum r = 1 -> simplest (closed lo' hi) r.
Proof.
  intros P L ((A1 & A2) & R & M) N1. split; [split; auto; now apply Qle_trans with lo|]. split; auto. intros p q (B1 & B2).
  assert (Pp : (0 < p # q)%Q) by (now apply Qlt_le_trans with lo'). assert (0 < p) by (unfold Qlt in Pp; cbn [Qnum Qden] in Pp; lia). rewrite N1. split; [lia|].
  destruct (Z.le_gt_cases (Z.pos (Qden r)) (Z.pos q)) as [|G]; auto. apply (M 1 q). split.
  - apply Qle_trans with r; auto. unfold Qle. rewrite N1. cbn [Qnum Qden]. lia.
  - apply Qle_trans with (p # q); auto. unfold Qle. cbn [Qnum Qden]. nia.
Qed.
Lemma lower_code m k : -1074 <= k -> (lower_end m k <= code_lower m k)%Q.
Proof.
  intros K. unfold lower_end, code_lower. pose proof (pow2_pos_q k). destruct (m =? 2 ^ 52), (-1074 <? k); cbn [andb]; try apply Qle_refl. apply Qmult_le_compat_r; [|now apply Qlt_le_weak]. unfold Qle. cbn [Qnum Qden]. lia.
Qed.
Lemma code_lower_pos m k : 0 < m -> (0 < code_lower m k)%Q.
Proof. intros. unfold code_lower. pose proof (pow2_pos_q k). destruct (m =? 2 ^ 52); apply Qmult_lt_0_compat; auto; unfold Qlt; cbn [Qnum Qden]; lia. Qed.
Lemma closed_ext a b c d : (a == c)%Q -> (b == d)%Q -> forall q, closed a b q <-> closed c d q.
Proof. intros E1 E2 q. unfold closed. now rewrite E1, E2. Qed.
Lemma opened_ext a b c d : (a == c)%Q -> (b == d)%Q -> forall q, opened a b q <-> opened c d q.
Proof. intros E1 E2 q. unfold opened. now rewrite E1, E2. Qed.
Lemma least_normal_in : closed (code_lower (2 ^ 52) (-1074)) (upper_end (2 ^ 52) (-1074)) least_normal.
Proof.
  unfold code_lower, upper_end, pow2, least_normal. rewrite Z.eqb_refl. change (0 <=? -1074) with false. cbv iota. change (- -1074) with 1074.
  assert (E : 2 ^ 1074 = 4503599627370496 * 2 ^ 1022) by (change 4503599627370496 with (2 ^ 52); now rewrite <- Z.pow_add_r). rewrite E. change (2 ^ 52) with 4503599627370496.
  assert (P : Z.pos (Pos.pow 2 1022) = 2 ^ 1022) by (rewrite Pos2Z.inj_pow; reflexivity). pose proof (Z.pow_pos_nonneg 2 1022 ltac:(lia) ltac:(lia)) as P0. unfold closed, Qle, Qmult. cbn [Qnum Qden]. rewrite !Pos2Z.inj_mul, P, !Z2Pos.id by lia. set (c := 2 ^ 1022) in *. clearbody c. clear E P. split; lia.
Qed.
Lemma find_flonum m k : finite_double m k -> 0 < m -> exists r, flonum_to_rational false m k = Ok r /\ simplest (rounding m k) r.
Proof.
  intros (Hd & K) Hm. pose proof Hd as (K1 & _). unfold flonum_to_rational. destruct (code_ends m k) as (EU & EL). set (dm := if m =? 2 ^ 52 then pow2 (k - 2) else pow2 (k - 1)) in *.
  pose proof (code_lower_pos m k Hm) as CP. assert (Dm : (0 < dm)%Q) by (unfold dm; destruct (m =? 2 ^ 52); apply pow2_pos_q). assert (X0 : (0 <= ensure_exact m k)%Q) by lra. unfold rounding. destruct (Z.odd m) eqn:O.
  - assert (NE : (m =? 2 ^ 52) = false) by (apply Z.eqb_neq; intros ->; discriminate).
    destruct (find_open (ensure_exact m k) (pow2 (k - 1)) dm) as (r & -> & S1); auto using pow2_pos_q; [lra| |].
    + apply (ends_apart m k); auto. rewrite EL. unfold code_lower. rewrite NE. reflexivity.
    + cbn [bind]. exists r. split; auto. apply (simplest_ext _ _ _ (opened_ext _ _ _ _ EL EU)) in S1. revert S1. unfold code_lower, lower_end. rewrite NE. exact (fun x => x).
  - destruct (find_closed (ensure_exact m k) (pow2 (k - 1)) dm) as (r & -> & S1); auto; try (apply Qlt_le_weak; auto using pow2_pos_q). cbn [bind]. exists r. split; auto. apply (simplest_ext _ _ _ (closed_ext _ _ _ _ EL EU)) in S1.
    destruct (Z.eqb_spec m (2 ^ 52)) as [E|NE].
    + destruct (Z.eq_dec k (-1074)) as [Ek|Nk].
      * apply (widen (code_lower m k)); auto using lower_pos, lower_code. destruct S1 as ((A1 & A2) & R & M). assert (0 < Qnum r). { assert (P : (0 < r)%Q) by (now apply Qlt_le_trans with (code_lower m k)). unfold Qlt in P. cbn [Qnum Qden] in P. lia. }
        subst m k. destruct (M _ _ least_normal_in) as (M1 & _). change (Z.abs 1) with 1 in M1. lia.
      * revert S1. unfold code_lower, lower_end. rewrite (proj2 (Z.ltb_lt (-1074) k)) by lia. rewrite andb_true_r. exact (fun x => x).
    + revert S1. unfold code_lower, lower_end. rewrite (proj2 (Z.eqb_neq m (2 ^ 52)) NE). exact (fun x => x).
Qed.
Lemma nearest_sign q m k : finite_double m k -> 0 < m -> (nearest_flonum q (true, Fin m k) <-> nearest_flonum (- q) (false, Fin m k)).
Proof.
  intros Hd Hm. assert (X : nearest_flonum (- q) (false, Fin m k) -> (q < 0)%Q). { intros N. apply rounding_iff in N; auto. assert (P : (0 < - q)%Q); [|clear N; destruct q as [a b]; unfold Qlt in *; cbn [Qnum Qden Qopp] in *; lia]. apply Qlt_le_trans with (lower_end m k); [now apply lower_pos|]. unfold rounding in N. destruct (Z.odd m); destruct N as (N & _); auto. now apply Qlt_le_weak. }
  destruct q as [a b]. unfold nearest_flonum in *. cbn [fst snd Qnum Qden Qopp] in *. rewrite Z.abs_opp in *. split.
  - intros (S1 & R). split; auto. split; [discriminate|]. intros L. exfalso. assert (L' : (a # b < 0)%Q) by (now apply S1). unfold Qlt in L, L'. clear - L L'. cbn in L, L'. lia.
  - intros (S1 & R). split; auto. split; auto.
Qed.
(** exact of a flonum, as a rational *)
Lemma flonum_simplest neg m k : finite_double m k -> 0 < m -> exists r, flonum_to_rational neg m k = Ok r /\ simplest (fun q => nearest_flonum q (neg, Fin m k)) r.
Proof.
  intros Hd Hm. destruct (find_flonum m k Hd Hm) as (r & E & S1). assert (S2 : simplest (fun q => nearest_flonum q (false, Fin m k)) r) by (apply (simplest_ext (rounding m k)); auto; intros q; now rewrite rounding_iff).
  unfold flonum_to_rational in *. destruct (find_rational_1 _ _ _ _) as [r0| | |]; try discriminate. cbn [bind] in *. injection E as ->. destruct neg; [|now exists r].
  exists (Qred (- r)). split; auto. apply (simplest_opp (fun q => nearest_flonum q (false, Fin m k))); auto.
  - intros q. now apply nearest_sign.
  - intros p q E N. apply rounding_iff; auto. apply rounding_iff in N; auto. now apply (rounding_Qeq m k p).
Qed.
