(** Proofs about RzModel *)
From Coq Require Import ZArith QArith List Bool Lia Znumtheory Wf_nat Qcanon.
From Verif Require Import Outcome FloModel RzModel RzSpec.
Import ListNotations.
Local Open Scope Z_scope.
Ltac Zify.zify_post_hook ::= idtac.

(** the list is the continued fraction of p/q *)
Inductive CF : list Z -> Z -> Z -> Prop :=
| CF_end x : CF [x] x 1
| CF_step a l q r : 0 < r < q -> CF l q r -> CF (a :: l) (a * q + r) q.
(** the list has value u/v *)
Inductive VAL : list Z -> Z -> Z -> Prop :=
| VAL_end x : VAL [x] x 1
| VAL_step a l u v : 0 < u -> 0 < v -> VAL l u v -> VAL (a :: l) (a * u + v) u.
Lemma CF_pos l p q : CF l p q -> 0 < q. Proof. intros H. inversion H; subst; lia. Qed.
Lemma CF_ne l p q : CF l p q -> l <> []. Proof. intros H. inversion H; discriminate. Qed.
Lemma cf_loop_S f a b : cf_loop (S f) a b = if b =? 0 then [] else Z.quot a b :: cf_loop f b (Z.rem a b).
Proof. reflexivity. Qed.
Lemma cf_loop_ok n : forall p q, 0 <= p -> 0 < q < 2 ^ Z.of_nat n -> Z.gcd p q = 1 -> forall f, (2 * n <= f)%nat -> CF (cf_loop f p q) p q.
Proof.
  induction n as [n IH] using (well_founded_induction lt_wf). intros p q Hp Hq G f Hf. destruct n as [|n]. { change (2 ^ Z.of_nat 0) with 1 in Hq. lia. }
  destruct f as [|f]; [lia|]. rewrite cf_loop_S. rewrite (proj2 (Z.eqb_neq q 0)) by lia. rewrite Z.quot_div_nonneg, Z.rem_mod_nonneg by lia.
  pose proof (Z.mod_pos_bound p q ltac:(lia)) as MB. pose proof (Z.div_mod p q ltac:(lia)) as DM. set (r := p mod q) in *. set (a := p / q) in *.
  destruct (Z.eq_dec r 0) as [R0|R0].
  - assert (q = 1). { rewrite R0, Z.add_0_r in DM. rewrite DM, Z.gcd_comm, Z.gcd_mul_diag_l in G by lia. lia. } subst q. rewrite R0. replace p with a by lia. destruct f; constructor.
  - replace p with (a * q + r) at 1 by lia. constructor; [lia|]. assert (G1 : Z.gcd q r = 1). { rewrite <- G. rewrite (Z.gcd_comm p q). replace p with (r + a * q) by lia. now rewrite Z.gcd_add_mult_diag_r. }
    destruct f as [|f]; [lia|]. rewrite cf_loop_S. rewrite (proj2 (Z.eqb_neq r 0)) by lia. rewrite Z.quot_div_nonneg, Z.rem_mod_nonneg by lia.
    pose proof (Z.mod_pos_bound q r ltac:(lia)) as MB2. pose proof (Z.div_mod q r ltac:(lia)) as DM2. set (r2 := q mod r) in *. set (b := q / r) in *. assert (1 <= b) by (unfold b; apply Z.div_le_lower_bound; lia).
    destruct (Z.eq_dec r2 0) as [R2|R2].
    + assert (r = 1). { rewrite R2, Z.add_0_r in DM2. rewrite DM2, Z.gcd_comm, Z.gcd_mul_diag_l in G1 by lia. lia. } rewrite R2. rewrite H0 in *. replace q with b by lia. destruct f; constructor.
    + replace q with (b * r + r2) at 1 by lia. constructor; [lia|]. apply (IH n); [lia|lia| |rewrite <- G1, (Z.gcd_comm q r); replace q with (r2 + b * r) by lia; now rewrite Z.gcd_add_mult_diag_r|lia].
      assert (2 * r2 < q) by nia. replace (Z.of_nat (S n)) with (1 + Z.of_nat n) in Hq by lia. rewrite Z.pow_add_r in Hq by lia. lia.
Qed.
Lemma continued_fraction_ok x : (0 <= x)%Q -> CF (continued_fraction x) (Qnum (Qred x)) (Z.pos (Qden (Qred x))).
Proof.
  intros H. rewrite <- (Qred_correct x) in H. assert (G : Z.gcd (Qnum (Qred x)) (Z.pos (Qden (Qred x))) = 1). { pose proof (Qred_involutive x) as Q. now apply Qcanon.Qred_iff in Q. }
  unfold continued_fraction. set (p := Qnum (Qred x)) in *. set (q := Qden (Qred x)) in *. assert (P : 0 <= p) by (unfold Qle in H; cbn [Qnum Qden] in H; fold p q in H; lia).
  apply (cf_loop_ok (S (Z.to_nat (Z.log2 (Z.pos q))))); auto; [|lia]. split; [lia|]. pose proof (Z.log2_spec (Z.pos q) ltac:(lia)) as (_ & L). pose proof (Z.log2_nonneg (Z.pos q)). replace (Z.of_nat (S (Z.to_nat (Z.log2 (Z.pos q))))) with (Z.succ (Z.log2 (Z.pos q))) by lia. exact L.
Qed.
(** ** realize *)
Lemma VAL_pos l u v : VAL l u v -> 0 < v. Proof. intros H. inversion H; subst; lia. Qed.
Lemma VAL_gcd l u v : VAL l u v -> Z.gcd u v = 1.
Proof. induction 1; [apply Z.gcd_1_r|]. rewrite Z.gcd_comm, Z.add_comm, Z.gcd_add_mult_diag_r. exact IHVAL. Qed.
Lemma red_unique a b c d : 0 < b -> 0 < d -> Z.gcd a b = 1 -> Z.gcd c d = 1 -> a * d = c * b -> a = c /\ b = d.
Proof.
  intros Pb Pd G1 G2 E. assert (D1 : (b | d)). { apply (Z.gauss b a); [exists c; lia|now rewrite Z.gcd_comm]. } assert (D2 : (d | b)). { apply (Z.gauss d c); [exists a; lia|now rewrite Z.gcd_comm]. }
  assert (b = d) by (apply Z.divide_antisym_nonneg; auto; lia). subst. split; auto. nia.
Qed.
Lemma Qred_pair q u v : (q == u # Z.to_pos v)%Q -> 0 < v -> Z.gcd u v = 1 -> Qred q = u # Z.to_pos v.
Proof. intros E P G. rewrite (Qred_complete _ _ E). apply Qcanon.Qred_iff. cbn [Qnum Qden]. now rewrite Z2Pos.id by lia. Qed.
Lemma realize_ok l u v : VAL l u v -> realize (rev l) = Ok (u # Z.to_pos v).
Proof.
  induction 1 as [x|a l u v Pu Pv H IH]; [reflexivity|]. assert (R : realize (rev (a :: l)) = realize_step (realize (rev l)) a).
  { cbn [rev]. assert (rev l <> []) by (intros Q; apply (f_equal (@length Z)) in Q; rewrite rev_length in Q; inversion H; subst; discriminate). destruct (rev l) as [|b t]; [congruence|]. cbn [app realize]. now rewrite fold_left_app. }
  rewrite R, IH. unfold realize_step. cbn [bind]. destruct (Qeq_bool _ 0) eqn:Z0. { apply Qeq_bool_iff in Z0. unfold Qeq in Z0. cbn [Qnum Qden] in Z0. lia. }
  f_equal. apply Qred_pair; [|lia|]. 2: { exact (VAL_gcd (a :: l) _ _ (VAL_step a l u v Pu Pv H)). }
  destruct u as [|u|u]; try lia. destruct v as [|v|v]; try lia. cbn [Z.to_pos]. unfold Qeq, Qinv, Qplus, inject_Z. cbn [Qnum Qden]. lia.
Qed.
(** ** The interval between p/q and r/s, in either order *)
Definition between (p q r s i j : Z) : Prop := (p * j <= i * q /\ i * s <= r * j) \/ (r * j <= i * s /\ i * q <= p * j).
Definition between_o (p q r s i j : Z) : Prop := (p * j < i * q /\ i * s < r * j) \/ (r * j < i * s /\ i * q < p * j).
Definition least (B : Z -> Z -> Prop) (u v : Z) : Prop := B u v /\ forall i j, 0 < j -> B i j -> u <= i /\ v <= j.
Lemma refine_c_ok : forall xn p q, CF xn p q -> forall yn r s an, CF yn r s -> 0 <= p -> 0 <= r ->
  exists zl u v, refine_c xn yn an = Ok (rev zl ++ an) /\ VAL zl u v /\ least (between p q r s) u v.
Proof.
  induction 1 as [x|a l q q' Hq HX IH]; intros yn r s an HY Hp Hr; inversion HY as [y|b l' s0 s' Hs HY']; subst; clear HY.
  - exists [Z.min x r], (Z.min x r), 1. split; [reflexivity|]. split; [constructor|]. split; [unfold between; lia|]. intros i j Hj B. unfold between in B. split; [|lia]. destruct (Z.min_spec x r) as [(A & ->)|(A & ->)]; nia.
  - exists [Z.min x (1 + b)], (Z.min x (1 + b)), 1. assert (l' <> []) by (eapply CF_ne; eauto). split; [destruct l'; [congruence|reflexivity]|]. split; [constructor|]. split.
    + unfold between. destruct (Z.min_spec x (1 + b)) as [(A & ->)|(A & ->)]; [left|right]; nia.
    + intros i j Hj B. split; [|lia]. unfold between in B. destruct (Z.min_spec x (1 + b)) as [(A & ->)|(A & ->)]; destruct B as [(B1 & B2)|(B1 & B2)]; nia.
  - exists [Z.min r (a + 1)], (Z.min r (a + 1)), 1. assert (l <> []) by (eapply CF_ne; eauto). split; [destruct l; [congruence|reflexivity]|]. split; [constructor|]. split.
    + unfold between. destruct (Z.min_spec r (a + 1)) as [(A & ->)|(A & ->)]; [right|left]; nia.
    + intros i j Hj B. split; [|lia]. unfold between in B. destruct (Z.min_spec r (a + 1)) as [(A & ->)|(A & ->)]; destruct B as [(B1 & B2)|(B1 & B2)]; nia.
  - assert (l <> []) by (eapply CF_ne; eauto). assert (l' <> []) by (eapply CF_ne; eauto). assert (a >= 0) by nia. assert (b >= 0) by nia.
    assert (E : refine_c (a :: l) (b :: l') an = if a =? b then refine_c l l' (a :: an) else Ok (1 + Z.min a b :: an)) by (destruct l; [congruence|]; destruct l'; [congruence|]; reflexivity).
    rewrite E. destruct (Z.eqb_spec a b) as [<-|N].
    + destruct (IH l' s s' (a :: an) HY' ltac:(lia) ltac:(lia)) as (zl & u & v & E2 & V & (B0 & L0)). exists (a :: zl), (a * u + v), u. pose proof (VAL_pos _ _ _ V) as Pv.
      assert (Pu : 0 < u). { unfold between in B0. destruct B0 as [(B1 & B2)|(B1 & B2)]; nia. }
      split; [rewrite E2; cbn [rev]; rewrite <- app_assoc; reflexivity|]. split; [now constructor|]. split.
      * unfold between in *. destruct B0 as [(B1 & B2)|(B1 & B2)]; [right|left]; nia.
      * intros i j Hj B. assert (I0 : 0 < i - a * j /\ between q q' s s' j (i - a * j)). { unfold between in *. destruct B as [(B1 & B2)|(B1 & B2)]; (split; [nia|]); [right|left]; split; nia. }
        destruct I0 as (I0 & I1). destruct (L0 j (i - a * j) I0 I1). split; nia.
    + exists [1 + Z.min a b], (1 + Z.min a b), 1. split; [reflexivity|]. split; [constructor|]. split.
      * unfold between. destruct (Z.min_spec a b) as [(A & ->)|(A & ->)]; [left|right]; nia.
      * intros i j Hj B. split; [|lia]. unfold between in B. destruct (Z.min_spec a b) as [(A & ->)|(A & ->)]; destruct B as [(B1 & B2)|(B1 & B2)]; nia.
Qed.
