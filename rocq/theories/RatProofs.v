From Coq Require Import ZArith QArith List Bool Lia Znumtheory.
From Verif Require Import Outcome BignumModel BignumProofs BignumProofs2 IntModel IntSpec IntProofs IntProofs2 IntProofs3 RatModel RatSpec.
Import ListNotations.
Local Open Scope Z_scope.
Ltac Zify.zify_post_hook ::= idtac.

Definition vn (x : exact) : Z := int_of (numer_of x).
Definition vd (x : exact) : Z := int_of (denom_of x).
Lemma vd_pos x : wf x -> 0 < vd x. Proof. destruct x as [n|n d]; unfold vd; cbn [denom_of wf]; [cbn [int_of]; lia|]. intros (_ & _ & H & _). lia. Qed.
Lemma can_one : canonical (Fix 1). Proof. apply can_fix. lia. Qed.
Lemma can_zero : canonical (Fix 0). Proof. apply can_fix. lia. Qed.
Lemma wf_parts x : wf x -> canonical (numer_of x) /\ canonical (denom_of x) /\ Z.gcd (vn x) (vd x) = 1.
Proof. destruct x as [n|n d]; cbn [wf numer_of denom_of]; unfold vn, vd; cbn [numer_of denom_of]; [intros C; split; auto; split; [exact can_one|cbn [int_of]; apply Z.gcd_1_r]|intros (A & B & _ & D); auto]. Qed.
Lemma rat_frac x : wf x -> (rat_of x == inject_Z (vn x) / inject_Z (vd x))%Q.
Proof.
  intros Wx. pose proof (vd_pos x Wx) as P. destruct x as [n|n d]; unfold vn, vd in *; cbn [numer_of denom_of rat_of] in *.
  - cbn [int_of]. field. 
  - destruct (int_of d) as [|p|p] eqn:E; try lia. cbn [Z.to_pos]. rewrite (Qmake_Qdiv (int_of n) p). reflexivity.
Qed.
Lemma inj_nz z : z <> 0 -> ~ (inject_Z z == 0)%Q. Proof. intros H E. apply H. unfold Qeq in E. cbn in E. lia. Qed.
Lemma frac_eq a b c d : b <> 0 -> d <> 0 -> a * d = c * b -> (inject_Z a / inject_Z b == inject_Z c / inject_Z d)%Q.
Proof.
  intros Hb Hd E. pose proof (inj_nz _ Hb). pose proof (inj_nz _ Hd). assert (X : (inject_Z a * inject_Z d == inject_Z c * inject_Z b)%Q) by (rewrite <- !inject_Z_mult, E; reflexivity).
  setoid_replace (inject_Z a / inject_Z b)%Q with ((inject_Z a * inject_Z d) / (inject_Z b * inject_Z d))%Q by (field; auto). rewrite X. field. auto.
Qed.
Lemma frac_inv a b c d : b <> 0 -> d <> 0 -> (inject_Z a / inject_Z b == inject_Z c / inject_Z d)%Q -> a * d = c * b.
Proof.
  intros Hb Hd E. pose proof (inj_nz _ Hb). pose proof (inj_nz _ Hd). assert (X : (inject_Z (a * d) == inject_Z (c * b))%Q). { rewrite !inject_Z_mult. setoid_replace (inject_Z a * inject_Z d)%Q with (inject_Z a / inject_Z b * (inject_Z b * inject_Z d))%Q by (field; auto). rewrite E. field. auto. }
  unfold Qeq in X. cbn in X. lia.
Qed.
Definition yields (r : res exact) (p q : Z) : Prop := exists x, r = Ok x /\ wf x /\ vn x * q = p * vd x.
Lemma yields_gives r p q : q <> 0 -> yields r p q -> gives r (inject_Z p / inject_Z q)%Q.
Proof. intros Hq (x & E & Wx & V). exists x. split; auto. split; auto. rewrite (rat_frac x Wx). pose proof (vd_pos x Wx). apply frac_eq; auto; lia. Qed.

Lemma zero_p_ok x : canonical x -> zero_p x = (int_of x =? 0).
Proof. intros C. destruct x as [v|b]; cbn [zero_p]; [reflexivity|]. destruct C as (_ & _ & _ & C). symmetry. apply Z.eqb_neq. intros E. apply C. unfold in_fixnum_range. rewrite E. split; vm_compute; [discriminate|reflexivity]. Qed.
Lemma one_p_ok x : canonical x -> one_p x = (int_of x =? 1).
Proof. intros C. destruct x as [v|b]; cbn [one_p]; [reflexivity|]. destruct C as (_ & _ & _ & C). symmetry. apply Z.eqb_neq. intros E. apply C. unfold in_fixnum_range. rewrite E. split; vm_compute; [discriminate|reflexivity]. Qed.
Lemma quot_exact x y q0 : canonical x -> canonical y -> nwords x < MAX_DIGITS -> 0 < int_of y -> int_of x = q0 * int_of y -> ~ (int_of x = - 2 ^ 61 /\ int_of y = 2 ^ 61) ->
  exists q r, num_quotient x y = Ok (q, r) /\ canonical q /\ int_of q = q0.
Proof.
  intros Cx Cy Lx Py E H. destruct (num_quotient_ok x y Cx Cy Lx ltac:(lia)) as (q & r & Eq & Cq & _ & Vq & _).
  { unfold quot_exception. change 2305843009213693952 with (2 ^ 61). intros (A & [B|B]); [lia|]. apply H. split; [|exact B]. rewrite A. reflexivity. }
  exists q, r. split; auto. split; auto. rewrite Vq, E. apply Z.quot_mul. lia.
Qed.
Lemma negate_size x : canonical x -> canonical (num_negate x) /\ int_of (num_negate x) = - int_of x /\ nwords (num_negate x) <= nwords x.
Proof. intros C. destruct (num_negate_ok x C) as (A & B). split; auto. split; auto. apply nwords_mono; auto. rewrite B, Z.abs_opp. lia. Qed.

(** no trouble with the least fixnum: see the refuted theorem in RatProps *)
Definition safe (p q : Z) : Prop := ~ (p * Z.sgn q = - 2 ^ 61 /\ (2 ^ 61 | q)).
Lemma reduce_ok n d : canonical n -> canonical d -> nwords n < MAX_DIGITS -> nwords d < MAX_DIGITS -> int_of d <> 0 -> int_of n <> 0 -> safe (int_of n) (int_of d) ->
  yields (reduce_rational n d) (int_of n) (int_of d).
Proof.
  intros Cn Cd Ln Ld Hd Hn Sf. unfold reduce_rational. rewrite num_sign_ok by auto.
  assert (X : exists n' d', (if Z.sgn (int_of d) <? 0 then num_negate n else n) = n' /\ (if Z.sgn (int_of d) <? 0 then num_negate d else d) = d' /\
    canonical n' /\ canonical d' /\ nwords n' < MAX_DIGITS /\ nwords d' < MAX_DIGITS /\ int_of n' = int_of n * Z.sgn (int_of d) /\ int_of d' = Z.abs (int_of d)).
  { destruct (Z.ltb_spec (Z.sgn (int_of d)) 0) as [L|L].
    - destruct (negate_size n Cn) as (A & B & C). destruct (negate_size d Cd) as (A' & B' & C'). exists (num_negate n), (num_negate d). rewrite B, B'. assert (int_of d < 0) by (destruct (Z.sgn_spec (int_of d)) as [[]|[[]|[]]]; lia). rewrite Z.sgn_neg by lia. repeat split; auto; lia.
    - exists n, d. assert (0 < int_of d) by (destruct (Z.sgn_spec (int_of d)) as [[]|[[]|[]]]; lia). rewrite Z.sgn_pos by lia. repeat split; auto; lia. }
  destruct X as (n' & d' & -> & -> & Cn' & Cd' & Ln' & Ld' & Vn & Vd). rewrite one_p_ok, zero_p_ok by auto.
  assert (S1 : Z.sgn (int_of d) * int_of d = Z.abs (int_of d)) by (rewrite Z.mul_comm; apply Z.abs_sgn || (destruct (Z.sgn_spec (int_of d)) as [[? ->]|[[? ->]|[? ->]]]; lia)).
  assert (Goal1 : forall a b, a * int_of d' = int_of n' * b -> a * int_of d = int_of n * b).
  { intros a b. rewrite Vn, Vd. destruct (Z.lt_total (int_of d) 0) as [L|[L|L]]; [rewrite Z.sgn_neg, Z.abs_neq by lia|lia|rewrite Z.sgn_pos, Z.abs_eq by lia]; intros; lia. }
  destruct (Z.eqb_spec (int_of d') 1) as [D1|D1].
  { exists (EInt n'). split; auto. split; auto. apply Goal1. unfold vn, vd. cbn [numer_of denom_of int_of]. rewrite D1. reflexivity. }
  rewrite (proj2 (Z.eqb_neq (int_of d') 0)) by lia.
  destruct (num_gcd_ok n' d' Cn' Cd' Ln' Ld' ltac:(lia) ltac:(lia)) as (g & Eg & Cg & Vg). rewrite Eg. cbn [bind]. rewrite one_p_ok by auto.
  destruct (Z.eqb_spec (int_of g) 1) as [G1|G1].
  { exists (ERat n' d'). split; auto. split; [cbn [wf]; repeat split; auto; lia|]. apply Goal1. unfold vn, vd. cbn [numer_of denom_of]. lia. }
  assert (Gp : 0 < int_of g). { rewrite Vg. pose proof (Z.gcd_nonneg (int_of n') (int_of d')). destruct (Z.eq_dec (Z.gcd (int_of n') (int_of d')) 0) as [E|E]; [apply Z.gcd_eq_0_r in E; lia|lia]. }
  destruct (Z.gcd_divide_l (int_of n') (int_of d')) as (qn & En). destruct (Z.gcd_divide_r (int_of n') (int_of d')) as (qd & Ed). rewrite <- Vg in En, Ed.
  assert (Dab : (int_of d' | int_of d)) by (rewrite Vd; apply Z.divide_abs_l; reflexivity).
  destruct (quot_exact n' g qn Cn' Cg Ln' Gp En) as (a & ra & Ea & Ca & Va).
  { intros (A & B). apply Sf. split; [lia|]. apply Z.divide_trans with (int_of d'); auto. exists qd. rewrite <- B. exact Ed. }
  destruct (quot_exact d' g qd Cd' Cg Ld' Gp Ed) as (b & rb & Eb & Cb & Vb). { intros (A & _). lia. }
  rewrite Ea, Eb. cbn [bind fst]. rewrite one_p_ok, Vb by auto.
  assert (Cop : Z.gcd qn qd = 1).
  { assert (X : Z.gcd (int_of g * qn) (int_of g * qd) = int_of g * Z.gcd qn qd) by (apply Z.gcd_mul_mono_l_nonneg; lia). rewrite (Z.mul_comm (int_of g) qn), (Z.mul_comm (int_of g) qd), <- En, <- Ed, <- Vg in X. apply (Z.mul_reg_l _ _ (int_of g)); lia. }
  destruct (Z.eqb_spec qd 1) as [Q1|Q1].
  - exists (EInt a). split; auto. split; auto. apply Goal1. unfold vn, vd. cbn [numer_of denom_of int_of]. rewrite Va, En, Ed, Q1. ring.
  - exists (ERat a b). split; auto. split.
    + cbn [wf]. rewrite Va, Vb. repeat split; auto. assert (0 < qd); [|lia]. apply (Z.mul_pos_cancel_r qd (int_of g)); lia.
    + apply Goal1. unfold vn, vd. cbn [numer_of denom_of]. rewrite Va, Vb, En, Ed. ring.
Qed.
Lemma make_rational_ok n d : canonical n -> canonical d -> nwords n < MAX_DIGITS -> nwords d < MAX_DIGITS -> int_of d <> 0 -> safe (int_of n) (int_of d) ->
  yields (make_rational n d) (int_of n) (int_of d).
Proof.
  intros Cn Cd Ln Ld Hd Sf. unfold make_rational. rewrite zero_p_ok, one_p_ok, zero_p_ok by auto. rewrite (proj2 (Z.eqb_neq (int_of d) 0)) by auto.
  destruct (Z.eqb_spec (int_of d) 1) as [D1|D1]. { exists (EInt n). split; auto. split; auto. unfold vn, vd. cbn [numer_of denom_of int_of]. rewrite D1. reflexivity. }
  destruct (Z.eqb_spec (int_of n) 0) as [N0|N0]. { exists (EInt (Fix 0)). split; auto. split; [exact can_zero|]. unfold vn, vd. cbn [numer_of denom_of int_of]. lia. }
  apply reduce_ok; auto.
Qed.
Lemma num_eq_ok x y : canonical x -> canonical y -> num_eq x y = Ok (int_of x =? int_of y).
Proof. intros Cx Cy. unfold num_eq. rewrite num_cmp_ok by auto. cbn [bind]. f_equal. unfold cmpz. destruct (Z.compare_spec (int_of x) (int_of y)) as [E|L|L]; [symmetry; apply Z.eqb_eq; lia|symmetry; apply Z.eqb_neq; lia|symmetry; apply Z.eqb_neq; lia]. Qed.
