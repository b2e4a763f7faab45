(** exact-integer-sqrt: Newton's iteration. *)
From Coq Require Import List Bool ZArith Lia.
From Verif Require Import Outcome BignumModel IntSpec IntModel BignumProofs BignumProofs2 IntProofs IntProofs2.
Import ListNotations.
Local Open Scope Z_scope.
Ltac Zify.zify_post_hook ::= idtac.

Lemma newton_lower : forall S K R, 0 < S -> 0 <= R -> R * R <= K -> R <= (S * S + K) / (2 * S).
Proof. intros S K R HS HR H. apply Z.div_le_lower_bound; [lia|]. assert (0 <= (S - R) * (S - R)) by apply Z.square_nonneg. lia. Qed.
Lemma newton_dec : forall S K, 0 < S -> 0 <= K -> K < S * S -> (S * S + K) / (2 * S) < S.
Proof. intros S K HS HK H. apply Z.div_lt_upper_bound; [lia|]. lia. Qed.
Lemma newton_upper : forall S K, 0 < S -> 0 <= K -> (S * S + K) / (2 * S) <= Z.max S K.
Proof. intros S K HS HK. apply Z.div_le_upper_bound; [lia|]. assert (S * S <= S * Z.max S K) by (apply Z.mul_le_mono_nonneg_l; lia). assert (1 * Z.max S K <= S * Z.max S K) by (apply Z.mul_le_mono_nonneg_r; lia). lia. Qed.
Definition SQ : Z := 268435456.
Lemma isqrt_step : forall f k s, canonical k -> canonical s -> 0 < int_of k -> 0 < int_of s -> nwords k <= SQ -> nwords s <= SQ ->
  (int_of s = Z.sqrt (int_of k) -> exists d, isqrt_loop (S f) k s = Ok (s, d) /\ canonical d /\ int_of d = int_of k - int_of s * int_of s)
  /\ (int_of s <> Z.sqrt (int_of k) -> exists s1, isqrt_loop (S f) k s = isqrt_loop f k s1 /\ canonical s1 /\ int_of s1 = (int_of s * int_of s + int_of k) / (2 * int_of s) /\ nwords s1 <= SQ).
Proof.
  intros f k s Ck Cs Pk Ps Lk Ls. cbn [isqrt_loop]. unfold SQ in *. set (K := int_of k) in *. set (T := int_of s) in *.
  pose proof (nwords_pos k Ck). pose proof (nwords_pos s Cs). assert (SqP : 0 < T * T) by (apply Z.mul_pos_pos; lia).
  destruct (num_mul_ok s s Cs Cs ltac:(unfold MAX_DIGITS; lia)) as (s2 & -> & C2 & V2). cbn [bind]. fold T in V2. rewrite (num_cmp_ok k s2 Ck C2). cbn [bind]. rewrite V2. fold K. rewrite cmpz_spec.
  assert (W2 : Z.abs (int_of s2) < W ^ (2 * nwords s)). { rewrite V2. pose proof (nwords_upper s Cs) as U. fold T in U. rewrite Z.abs_mul. replace (2 * nwords s) with (nwords s + nwords s) by lia. rewrite Z.pow_add_r by lia. apply Z.mul_lt_mono_nonneg; lia. }
  assert (L2 : nwords s2 <= 2 * nwords s) by (apply nwords_le; auto; lia). pose proof (nwords_pos s2 C2).
  rewrite mkint_id by (unfold FIX_MIN, FIX_MAX; lia). assert (C22 : canonical (Fix 2)) by (apply can_fix; lia).
  destruct (num_mul_ok (Fix 2) s C22 Cs ltac:(unfold MAX_DIGITS; cbn [nwords]; lia)) as (t & Et & Ct & Vt). cbn [int_of] in Vt. fold T in Vt. rewrite Et. cbn [bind].
  assert (Lt : nwords t <= nwords s + 1). { apply nwords_le; auto; [lia|]. rewrite Vt. pose proof (nwords_upper s Cs) as U. fold T in U. rewrite Z.pow_add_r, Z.pow_1_r by lia. pose proof W_big. assert (2 * Z.abs T < W * W ^ nwords s) by (apply Z.mul_lt_mono_nonneg; lia). lia. } pose proof (nwords_pos t Ct).
  destruct (num_add_ok s2 k C2 Ck ltac:(unfold MAX_DIGITS; lia) ltac:(unfold MAX_DIGITS; lia)) as (a & Ea & Ca & Va). fold K in Va. rewrite Ea. cbn [bind].
  set (M := Z.max (2 * nwords s) (nwords k)). assert (La : nwords a <= M + 1).
  { apply nwords_le; auto; [lia|]. rewrite Va, V2. pose proof (nwords_upper k Ck) as U. fold K in U. rewrite V2 in W2. assert (W ^ nwords k <= W ^ M) by (apply Z.pow_le_mono_r; [pose proof W_pos|]; lia). assert (W ^ (2 * nwords s) <= W ^ M) by (apply Z.pow_le_mono_r; [pose proof W_pos|]; lia). rewrite Z.pow_add_r, Z.pow_1_r by lia. pose proof W_big. assert (2 * W ^ M <= W ^ M * W) by (rewrite Z.mul_comm; apply Z.mul_le_mono_nonneg_l; lia). lia. }
  destruct (num_quotient_ok a t Ca Ct ltac:(unfold MAX_DIGITS; lia) ltac:(lia)) as (q & r & Eq & Cq & _ & Vq & _). { unfold quot_exception. lia. } rewrite Eq. cbn [bind fst].
  assert (Vq' : int_of q = (T * T + K) / (2 * T)). { rewrite Vq, Va, Vt, V2, Z.quot_div_nonneg by lia. reflexivity. }
  assert (Lq : nwords q <= 268435456). { pose proof (newton_upper T K ltac:(lia) ltac:(lia)). assert (0 <= int_of q) by (rewrite Vq'; apply Z.div_pos; lia). destruct (Z.max_spec T K) as [[A B]|[A B]].
    - pose proof (nwords_mono q k Cq Ck) as Mo. fold K in Mo. lia. - pose proof (nwords_mono q s Cq Cs) as Mo. fold T in Mo. lia. }
  destruct (num_add_ok s2 t C2 Ct ltac:(unfold MAX_DIGITS; lia) ltac:(unfold MAX_DIGITS; lia)) as (b & Eb & Cb & Vb). rewrite Eb. cbn [bind].
  assert (Lb : nwords b <= 2 * nwords s + 2). { apply nwords_le; auto; [lia|]. rewrite Vb. pose proof (nwords_upper t Ct) as U. assert (W ^ nwords t <= W ^ (2 * nwords s + 1)) by (apply Z.pow_le_mono_r; [pose proof W_pos|]; lia). assert (W ^ (2 * nwords s) <= W ^ (2 * nwords s + 1)) by (apply Z.pow_le_mono_r; [pose proof W_pos|]; lia). replace (2 * nwords s + 2) with (2 * nwords s + 1 + 1) by lia. rewrite (Z.pow_add_r W (2 * nwords s + 1) 1), Z.pow_1_r by lia. pose proof W_big. assert (2 * W ^ (2 * nwords s + 1) <= W ^ (2 * nwords s + 1) * W) by (rewrite Z.mul_comm; apply Z.mul_le_mono_nonneg_l; [apply Z.pow_nonneg|]; lia). lia. }
  rewrite mkint_id by (unfold FIX_MIN, FIX_MAX; lia). destruct (num_add_ok b (Fix 1) Cb ltac:(apply can_fix; lia) ltac:(unfold MAX_DIGITS; lia) ltac:(reflexivity)) as (c & Ec & Cc & Vc). rewrite Ec. cbn [bind]. rewrite (num_cmp_ok k c Ck Cc). cbn [bind]. rewrite cmpz_spec. cbn [int_of] in Vc. rewrite Vc, Vb, V2, Vt. fold K.
  destruct (num_sub_ok k s2 Ck C2 ltac:(unfold MAX_DIGITS; lia) ltac:(unfold MAX_DIGITS; lia)) as (d & Ed & Cd & Vd). rewrite Ed. cbn [bind]. fold K in Vd. rewrite V2 in Vd.
  pose proof (Z.sqrt_spec K ltac:(lia)) as [Sq1 Sq2]. split.
  - intros E. rewrite <- E in *. rewrite (proj2 (Z.ltb_ge K (T * T))) by lia.
    replace ((if T * T <? K then 1 else 0) <? 0) with false by (destruct (T * T <? K); reflexivity). rewrite (proj2 (Z.ltb_lt K _)) by lia. change (-1 <? 0) with true. cbn match. eauto.
  - intros E. exists q. split; auto. destruct (Z.ltb_spec K (T * T)); [reflexivity|].
    replace ((if T * T <? K then 1 else 0) <? 0) with false by (destruct (T * T <? K); reflexivity). cbn match.
    destruct (Z.ltb_spec K (T * T + 2 * T + 1)); [|now destruct (T * T + 2 * T + 1 <? K)]. exfalso. apply E. symmetry. apply Z.sqrt_unique. unfold Z.succ. lia.
Qed.
Lemma isqrt_loop_ok : forall n k s, canonical k -> canonical s -> 0 < int_of k -> 0 < int_of s -> nwords k <= SQ -> nwords s <= SQ -> Z.sqrt (int_of k) <= int_of s <= Z.sqrt (int_of k) + Z.of_nat n ->
  exists r d, isqrt_loop (S n) k s = Ok (r, d) /\ canonical r /\ canonical d /\ int_of r = Z.sqrt (int_of k) /\ int_of d = int_of k - int_of r * int_of r.
Proof.
  induction n; intros k s Ck Cs Pk Ps Lk Ls B.
  - destruct (isqrt_step 0 k s Ck Cs Pk Ps Lk Ls) as [A _]. assert (E : int_of s = Z.sqrt (int_of k)) by lia. destruct (A E) as (d & H1 & H2 & H3). exists s, d. auto.
  - destruct (isqrt_step (S n) k s Ck Cs Pk Ps Lk Ls) as [A A2]. destruct (Z.eq_dec (int_of s) (Z.sqrt (int_of k))) as [E|N].
    + destruct (A E) as (d & H1 & H2 & H3). exists s, d. auto.
    + destruct (A2 N) as (s1 & -> & C1 & V1 & L1). pose proof (Z.sqrt_spec (int_of k) ltac:(lia)) as [Q1 Q2]. unfold Z.succ in Q2. set (R := Z.sqrt (int_of k)) in *. assert (0 <= R) by apply Z.sqrt_nonneg.
      assert (1 <= R). { destruct (Z.leb_spec 1 R); auto. assert (R = 0) by lia. rewrite H1 in Q2. lia. }
      pose proof (newton_lower (int_of s) (int_of k) R ltac:(lia) ltac:(lia) Q1). pose proof (newton_dec (int_of s) (int_of k) ltac:(lia) ltac:(lia)) as Dc. assert (int_of k < int_of s * int_of s). { assert ((R + 1) * (R + 1) <= int_of s * int_of s) by (apply Z.mul_le_mono_nonneg; lia). lia. } specialize (Dc H2).
      apply IHn; auto; lia.
Qed.
Lemma isqrt_total : forall k s, canonical k -> canonical s -> 0 < int_of k -> 0 < int_of s -> nwords k <= SQ -> nwords s <= SQ ->
  exists fuel r d, isqrt_loop fuel k s = Ok (r, d) /\ canonical r /\ canonical d /\ int_of r = Z.sqrt (int_of k) /\ int_of d = int_of k - int_of r * int_of r.
Proof.
  intros k s Ck Cs Pk Ps Lk Ls. pose proof (Z.sqrt_spec (int_of k) ltac:(lia)) as [Q1 Q2]. unfold Z.succ in Q2. assert (R0 : 0 <= Z.sqrt (int_of k)) by apply Z.sqrt_nonneg.
  assert (R1 : 1 <= Z.sqrt (int_of k)). { destruct (Z.leb_spec 1 (Z.sqrt (int_of k))); auto. assert (E : Z.sqrt (int_of k) = 0) by lia. rewrite E in Q2. lia. }
  destruct (Z.leb_spec (Z.sqrt (int_of k)) (int_of s)).
  - exists (S (Z.to_nat (int_of s - Z.sqrt (int_of k)))). apply isqrt_loop_ok; auto. lia.
  - destruct (isqrt_step 0 k s Ck Cs Pk Ps Lk Ls) as [_ A]. destruct A as (s1 & _ & C1 & V1 & L1); [lia|]. clear s1 C1 V1 L1.
    set (T1 := (int_of s * int_of s + int_of k) / (2 * int_of s)). exists (S (S (Z.to_nat (T1 - Z.sqrt (int_of k))))). destruct (isqrt_step (S (Z.to_nat (T1 - Z.sqrt (int_of k)))) k s Ck Cs Pk Ps Lk Ls) as [_ A]. destruct A as (s1 & -> & C1 & V1 & L1); [lia|]. fold T1 in V1.
    pose proof (newton_lower (int_of s) (int_of k) (Z.sqrt (int_of k)) ltac:(lia) ltac:(lia) Q1) as NL. fold T1 in NL. apply isqrt_loop_ok; auto; lia.
Qed.
