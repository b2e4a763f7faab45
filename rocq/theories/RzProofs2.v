(** Proofs about RzModel: open intervals, and rationalize *)
From Coq Require Import ZArith QArith List Bool Lia Qcanon Lqa.
From Verif Require Import Outcome FloModel RzModel RzSpec RzProofs.
Import ListNotations.
Local Open Scope Z_scope.
Ltac Zify.zify_post_hook ::= idtac.

(** p/q and r/s are so far apart that no list ends too early *)
Definition apart (p q r s : Z) : Prop := 2 * q <= Z.abs (p * s - r * q) /\ 2 * s <= Z.abs (p * s - r * q).
Lemma refine_end_ok x yn r s an : CF yn r s -> 0 <= x -> 0 <= r -> apart x 1 r s ->
  exists zl u v, refine_end x yn an = Ok (rev zl ++ an) /\ VAL zl u v /\ least (between_o x 1 r s) u v.
Proof.
  intros HY Hx Hr (A1 & A2). unfold refine_end. inversion HY as [y|b l' s0 s' Hs HY']; subst; clear HY.
  - rewrite (proj2 (Z.eqb_neq (x - r) (-1))), (proj2 (Z.eqb_neq (x - r) 1)) by lia. cbn [orb]. exists [1 + Z.min x r], (1 + Z.min x r), 1. split; [reflexivity|]. split; [constructor|]. split; [unfold between_o; lia|]. intros i j Hj B. unfold between_o in B. split; [|lia]. destruct (Z.min_spec x r) as [(A & ->)|(A & ->)]; nia.
  - destruct l' as [|ym l']; [inversion HY'|]. destruct (Z.lt_ge_cases x b) as [L|L].
    + assert (x + 2 <= b) by nia. rewrite (proj2 (Z.ltb_lt (x + 1) b)) by lia. exists [x + 1], (x + 1), 1. split; [reflexivity|]. split; [constructor|]. split; [left; nia|]. intros i j Hj B. split; [|lia]. unfold between_o in B. destruct B as [(B1 & B2)|(B1 & B2)]; nia.
    + assert (b + 2 <= x) by nia. rewrite (proj2 (Z.ltb_ge (x + 1) b)), (proj2 (Z.eqb_neq b (x + 1))), (proj2 (Z.eqb_neq b x)), (proj2 (Z.eqb_neq b (x - 1))) by lia. exists [b + 1], (b + 1), 1. split; [reflexivity|]. split; [constructor|]. split; [right; nia|]. intros i j Hj B. split; [|lia]. unfold between_o in B. destruct B as [(B1 & B2)|(B1 & B2)]; nia.
Qed.
Lemma between_o_sym p q r s i j : between_o p q r s i j <-> between_o r s p q i j.
Proof. unfold between_o. tauto. Qed.
Lemma refine_o_ok : forall xn p q, CF xn p q -> forall yn r s an, CF yn r s -> 0 <= p -> 0 <= r -> apart p q r s ->
  exists zl u v, refine_o xn yn an = Ok (rev zl ++ an) /\ VAL zl u v /\ least (between_o p q r s) u v.
Proof.
  induction 1 as [x|a l q q' Hq HX IH]; intros yn r s an HY Hp Hr AP.
  - assert (E : refine_o [x] yn an = refine_end x yn an) by (destruct yn; reflexivity). rewrite E. now apply refine_end_ok.
  - inversion HY as [y|b l' s0 s' Hs HY']; subst.
    + assert (l <> []) by (eapply CF_ne; eauto). assert (E : refine_o (a :: l) [r] an = refine_end r (a :: l) an) by (destruct l; [congruence|reflexivity]). rewrite E.
      destruct (refine_end_ok r (a :: l) (a * q + q') q an ltac:(now constructor) Hr Hp) as (zl & u & v & E2 & V & (B & L)). { destruct AP as (A1 & A2). split; lia. }
      exists zl, u, v. split; auto. split; auto. split; [now apply between_o_sym|]. intros i j Hj Bij. apply L; auto. now apply between_o_sym.
    + assert (l <> []) by (eapply CF_ne; eauto). assert (l' <> []) by (eapply CF_ne; eauto). assert (a >= 0) by nia. assert (b >= 0) by nia.
      assert (E : refine_o (a :: l) (b :: l') an = if a =? b then refine_o l l' (a :: an) else Ok (1 + Z.min a b :: an)) by (destruct l; [congruence|]; destruct l'; [congruence|]; reflexivity).
      rewrite E. destruct (Z.eqb_spec a b) as [<-|N].
      * destruct (IH l' s s' (a :: an) HY' ltac:(lia) ltac:(lia)) as (zl & u & v & E2 & V & (B0 & L0)). { destruct AP as (A1 & A2). replace ((a * q + q') * s - (a * s + s') * q) with (- (q * s' - s * q')) in * by ring. split; lia. }
        exists (a :: zl), (a * u + v), u. pose proof (VAL_pos _ _ _ V) as Pv.
        assert (Pu : 0 < u). { unfold between_o in B0. destruct B0 as [(B1 & B2)|(B1 & B2)]; nia. }
        split; [rewrite E2; cbn [rev]; rewrite <- app_assoc; reflexivity|]. split; [now constructor|]. split.
        -- unfold between_o in *. destruct B0 as [(B1 & B2)|(B1 & B2)]; [right|left]; nia.
        -- intros i j Hj B. assert (I0 : 0 < i - a * j /\ between_o q q' s s' j (i - a * j)). { unfold between_o in *. destruct B as [(B1 & B2)|(B1 & B2)]; (split; [nia|]); [right|left]; split; nia. }
           destruct I0 as (I0 & I1). destruct (L0 j (i - a * j) I0 I1). split; nia.
      * exists [1 + Z.min a b], (1 + Z.min a b), 1. split; [reflexivity|]. split; [constructor|]. split.
        -- unfold between_o. destruct (Z.min_spec a b) as [(A & ->)|(A & ->)]; [left|right]; nia.
        -- intros i j Hj B. split; [|lia]. unfold between_o in B. destruct (Z.min_spec a b) as [(A & ->)|(A & ->)]; destruct B as [(B1 & B2)|(B1 & B2)]; nia.
Qed.
(** ** Rationals *)
Lemma Qlt_bool_iff p q : Qlt_bool p q = true <-> (p < q)%Q.
Proof. unfold Qlt_bool. rewrite negb_true_iff. split; intros H. - apply Qnot_le_lt. intros L. apply Qle_bool_iff in L. congruence. - apply not_true_is_false. intros L. apply Qle_bool_iff in L. revert L. now apply Qlt_not_le. Qed.
Lemma Qlt_bool_false p q : Qlt_bool p q = false <-> (q <= p)%Q.
Proof. rewrite <- not_true_iff_false, Qlt_bool_iff. split; intros H; [now apply Qnot_lt_le|now apply Qle_not_lt]. Qed.
Lemma simplest_ext (S1 S2 : Q -> Prop) r : (forall q, S1 q <-> S2 q) -> simplest S1 r -> simplest S2 r.
Proof. intros E (A & B & C). split; [now apply E|]. split; auto. intros p q H. apply C. now apply E. Qed.
Lemma zero_simplest (S : Q -> Prop) : S 0%Q -> simplest S 0%Q.
Proof. intros H. split; auto. split; [reflexivity|]. intros p q _. cbn [Qnum Qden Z.abs]. lia. Qed.
(** [least] over pairs is [simplest] over Q *)
Lemma least_simplest (B : Z -> Z -> Prop) (S : Q -> Prop) u v : 0 <= u -> 0 < v -> Z.gcd u v = 1 -> (forall p q, B p (Z.pos q) <-> S (p # q)) -> least B u v -> simplest S (u # Z.to_pos v).
Proof.
  intros Hu Hv G E (A & L). destruct v as [|v|v]; try lia. cbn [Z.to_pos]. split; [now apply E|]. split; [apply Qred_iff; exact G|]. intros p q H. cbn [Qnum Qden]. apply E in H. destruct (L p (Z.pos q) ltac:(lia) H). lia.
Qed.
Lemma closed_between ub lb p q : (lb <= ub)%Q -> between (Qnum ub) (Z.pos (Qden ub)) (Qnum lb) (Z.pos (Qden lb)) p (Z.pos q) <-> closed lb ub (p # q).
Proof.
  intros H. unfold between, closed, Qle in *. destruct ub as [a b], lb as [c d]. cbn [Qnum Qden] in *. split; [intros [(A & B)|(A & B)]; [|tauto]|tauto].
  assert (c * Z.pos b * Z.pos q = a * Z.pos d * Z.pos q) by nia. assert (c * Z.pos b = a * Z.pos d) by nia. split; nia.
Qed.
Lemma opened_between ub lb p q : (lb <= ub)%Q -> between_o (Qnum ub) (Z.pos (Qden ub)) (Qnum lb) (Z.pos (Qden lb)) p (Z.pos q) <-> opened lb ub (p # q).
Proof.
  intros H. unfold between_o, opened, Qle, Qlt in *. destruct ub as [a b], lb as [c d]. cbn [Qnum Qden] in *. split; [intros [(A & B)|(A & B)]; [exfalso; nia|tauto]|tauto].
Qed.
Lemma Qnum_nonneg q : (0 <= q)%Q -> 0 <= Qnum q. Proof. unfold Qle. cbn. lia. Qed.
Lemma simplest_unique_point q : (0 <= q)%Q -> simplest (closed q q) (Qred q).
Proof.
  intros H. split; [unfold closed; rewrite Qred_correct; split; apply Qle_refl|]. split; [apply Qred_involutive|]. intros a b (A & B). assert (E : (q == a # b)%Q) by (now apply Qle_antisym). pose proof (Qred_complete _ _ E) as R. rewrite R. 
  assert (E2 : (Qred (a # b) == a # b)%Q) by apply Qred_correct. assert (G : Z.gcd (Qnum (Qred (a # b))) (Z.pos (Qden (Qred (a # b)))) = 1) by (apply Qred_iff; apply Qred_involutive).
  destruct (Qred (a # b)) as [c d]. unfold Qeq in E2. cbn [Qnum Qden] in *. assert (D : (Z.pos d | Z.pos b)). { apply (Z.gauss (Z.pos d) c); [exists a; lia|now rewrite Z.gcd_comm]. } destruct D as (k & Dk). assert (0 < k) by nia. assert (a = c * k) by nia. subst a. rewrite Dk. split; nia.
Qed.
Lemma find_closed x dp dm : (0 <= x)%Q -> (0 <= dp)%Q -> (0 <= dm)%Q -> exists r, find_rational_1 x dp dm false = Ok r /\ simplest (closed (x - dm) (x + dp)) r.
Proof.
  intros Hx Hp Hm. unfold find_rational_1. set (ub := Qred (x + dp)). set (lb := Qred (x - dm)). assert (Eu : (ub == x + dp)%Q) by apply Qred_correct. assert (El : (lb == x - dm)%Q) by apply Qred_correct.
  assert (S : forall q, closed lb ub q <-> closed (x - dm) (x + dp) q) by (intros q; unfold closed; now rewrite Eu, El).
  destruct (Qlt_bool lb 0) eqn:L0. { exists 0%Q. split; auto. apply (simplest_ext _ _ _ S). apply zero_simplest. apply Qlt_bool_iff in L0. unfold closed. split; [now apply Qlt_le_weak|]. rewrite Eu. lra. }
  apply Qlt_bool_false in L0. assert (LU : (lb <= ub)%Q) by (rewrite Eu, El; lra). destruct (Qeq_bool ub lb) eqn:E0.
  - apply Qeq_bool_iff in E0. exists ub. split; auto. apply (simplest_ext (closed ub ub)). { intros q. rewrite <- S. unfold closed. now rewrite <- E0. } replace ub with (Qred ub) at 3 by (unfold ub; apply Qred_involutive). apply simplest_unique_point. lra.
  - assert (RU : Qred ub = ub) by (unfold ub; apply Qred_involutive). assert (RL : Qred lb = lb) by (unfold lb; apply Qred_involutive). pose proof (continued_fraction_ok ub ltac:(lra)) as CU. pose proof (continued_fraction_ok lb L0) as CL. rewrite RU in CU. rewrite RL in CL.
    destruct (refine_c_ok _ _ _ CU _ _ _ [] CL (Qnum_nonneg ub ltac:(lra)) (Qnum_nonneg lb L0)) as (zl & u & v & -> & V & LE). cbn [bind]. rewrite app_nil_r. rewrite (realize_ok _ _ _ V). eexists. split; [reflexivity|]. apply (simplest_ext _ _ _ S). pose proof (VAL_pos _ _ _ V) as Pv.
    assert (Pu : 0 <= u). { destruct LE as (B & _). unfold between in B. pose proof (Qnum_nonneg ub ltac:(lra)). pose proof (Qnum_nonneg lb L0). destruct B as [(B1 & B2)|(B1 & B2)]; nia. }
    apply (least_simplest _ _ _ _ Pu Pv (VAL_gcd _ _ _ V) (fun p q => closed_between ub lb p q LU) LE).
Qed.
Lemma find_open x dp dm : (0 < dp)%Q -> (0 < dm)%Q -> (0 <= x - dm)%Q -> apart (Qnum (Qred (x + dp))) (Z.pos (Qden (Qred (x + dp)))) (Qnum (Qred (x - dm))) (Z.pos (Qden (Qred (x - dm)))) ->
  exists r, find_rational_1 x dp dm true = Ok r /\ simplest (opened (x - dm) (x + dp)) r.
Proof.
  intros Hp Hm H0 AP. unfold find_rational_1. set (ub := Qred (x + dp)) in *. set (lb := Qred (x - dm)) in *. assert (Eu : (ub == x + dp)%Q) by apply Qred_correct. assert (El : (lb == x - dm)%Q) by apply Qred_correct.
  assert (S : forall q, opened lb ub q <-> opened (x - dm) (x + dp) q) by (intros q; unfold opened; now rewrite Eu, El).
  rewrite (proj2 (Qlt_bool_false lb 0)) by lra. assert (LU : (lb < ub)%Q) by lra. destruct (Qeq_bool ub lb) eqn:E0. { apply Qeq_bool_iff in E0. lra. }
  assert (RU : Qred ub = ub) by (unfold ub; apply Qred_involutive). assert (RL : Qred lb = lb) by (unfold lb; apply Qred_involutive). assert (L0 : (0 <= lb)%Q) by lra. assert (U0 : (0 <= ub)%Q) by lra. pose proof (continued_fraction_ok ub U0) as CU. pose proof (continued_fraction_ok lb L0) as CL. rewrite RU in CU. rewrite RL in CL.
  destruct (refine_o_ok _ _ _ CU _ _ _ [] CL (Qnum_nonneg ub U0) (Qnum_nonneg lb L0) AP) as (zl & u & v & -> & V & LE). cbn [bind]. rewrite app_nil_r. rewrite (realize_ok _ _ _ V). eexists. split; [reflexivity|]. apply (simplest_ext _ _ _ S). pose proof (VAL_pos _ _ _ V) as Pv.
  assert (Pu : 0 <= u). { destruct LE as (B & _). unfold between_o in B. pose proof (Qnum_nonneg ub U0). pose proof (Qnum_nonneg lb L0). destruct B as [(B1 & B2)|(B1 & B2)]; nia. }
  apply (least_simplest _ _ _ _ Pu Pv (VAL_gcd _ _ _ V) (fun p q => opened_between ub lb p q (Qlt_le_weak _ _ LU)) LE).
Qed.
Lemma simplest_opp (S S' : Q -> Prop) r : (forall q, S' q <-> S (- q)%Q) -> (forall p q, (p == q)%Q -> S p -> S q) -> simplest S r -> simplest S' (Qred (- r)).
Proof.
  intros E X (A & B & C). assert (R : Qred (- r) = Qopp r). { destruct r as [a b]. apply Qred_iff. cbn [Qnum Qden Qopp]. rewrite Z.gcd_opp_l. now apply Qred_iff in B. }
  rewrite R. split; [apply E; apply (X r); [now rewrite Qopp_involutive|exact A]|]. split; [now rewrite <- R at 2|]. intros p q H. apply E in H. destruct (C (- p) q H) as (C1 & C2). destruct r as [a b]. cbn [Qnum Qden Qopp] in *. lia.
Qed.
