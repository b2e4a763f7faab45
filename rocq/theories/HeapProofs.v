(** Min-max heaps: the order invariants of bubble-up and trickle-down, over the function
    view of the storage. *)
From Coq Require Import List Bool Arith Permutation Lia ZArith ZifyNat.
From Verif Require Import Outcome HeapModel HeapSpec.
Import ListNotations.
Local Open Scope nat_scope.
Ltac Zify.zify_post_hook ::= Z.to_euclidean_division_equations.

Section HeapP.
Context {A : Type} (lt : A -> A -> bool) (filler : A) (WO : weak_order lt).

Definition rel (m : bool) : A -> A -> bool := if m then lt else gt lt.
Definition le (m : bool) (a b : A) : Prop := rel m b a = false.

Lemma le_flip m a b : le (negb m) a b <-> le m b a.
Proof. unfold le, rel, gt; destruct m; cbn; tauto. Qed.
Lemma le_flip' m m' a b : m' = negb m -> le m' a b -> le m b a.
Proof. intros -> H; apply le_flip, H. Qed.
Lemma le_refl m a : le m a a.
Proof. unfold le, rel, gt; destruct m; apply WO. Qed.
Lemma lt_ntrans a b c : lt b a = false -> lt c b = false -> lt c a = false.
Proof.
  intros H1 H2; destruct (lt c a) eqn:E; [|reflexivity].
  destruct (wo_total lt WO c a b E); congruence.
Qed.
Lemma le_trans m a b c : le m a b -> le m b c -> le m a c.
Proof. unfold le, rel, gt; destruct m; intros; eapply lt_ntrans; eauto. Qed.
Lemma rel_le m a b : rel m a b = true -> le m a b.
Proof.
  unfold le, rel, gt; destruct m; intros H.
  - destruct (lt b a) eqn:E; [|reflexivity].
    pose proof (wo_trans lt WO _ _ _ H E) as HH; rewrite (wo_irrefl lt WO) in HH; discriminate.
  - destruct (lt a b) eqn:E; [|reflexivity].
    pose proof (wo_trans lt WO _ _ _ H E) as HH; rewrite (wo_irrefl lt WO) in HH; discriminate.
Qed.

(** levels *)
Lemma min_node_half i : 2 <= i -> min_node (i / 2) = negb (min_node i).
Proof.
  intros H; unfold min_node, integer_length.
  replace (i =? 0) with false by (symmetry; apply Nat.eqb_neq; lia).
  replace (i / 2 =? 0) with false by (symmetry; apply Nat.eqb_neq; lia).
  assert (E : Nat.log2 i = S (Nat.log2 (i / 2))).
  { destruct (Nat.Even_or_Odd i) as [[k Hk]|[k Hk]]; subst i.
    - replace (2 * k / 2) with k by lia. apply Nat.log2_double; lia.
    - replace ((2 * k + 1) / 2) with k by lia.
      rewrite <- (Nat.log2_succ_double k) by lia. reflexivity. }
  rewrite E. replace (S (Nat.log2 (i / 2)) + 1) with (S (Nat.log2 (i/2) + 1)) by lia.
  rewrite Nat.odd_succ, <- Nat.negb_odd, negb_involutive. reflexivity.
Qed.
Lemma div4 j : j / 4 = j / 2 / 2.
Proof. rewrite Nat.div_div by lia; reflexivity. Qed.
Lemma min_node_quarter i : 4 <= i -> min_node (i / 4) = min_node i.
Proof.
  intros H; rewrite div4, min_node_half by lia. rewrite min_node_half by lia. apply negb_involutive.
Qed.

(** the order conditions *)
Definition P (v : nat -> A) (p j : nat) : Prop := le (min_node p) (v p) (v j).
Definition H (v : nat -> A) (n : nat) : Prop :=
  (forall j, 2 <= j <= n -> P v (j / 2) j) /\ (forall j, 4 <= j <= n -> P v (j / 4) j).
Definition swapped (v : nat -> A) (a b : nat) : nat -> A :=
  fun j => if j =? a then v b else if j =? b then v a else v j.
Definition desc (k c : nat) : Prop := c / 2 = k \/ c / 4 = k.

Lemma sw_l v a b : swapped v a b a = v b.
Proof. unfold swapped; rewrite Nat.eqb_refl; reflexivity. Qed.
Lemma sw_r v a b : swapped v a b b = v a.
Proof. unfold swapped; destruct (Nat.eqb_spec b a); [subst; reflexivity|]; rewrite Nat.eqb_refl; reflexivity. Qed.
Lemma sw_o v a b j : j <> a -> j <> b -> swapped v a b j = v j.
Proof. intros; unfold swapped; destruct (Nat.eqb_spec j a); [tauto|]; destruct (Nat.eqb_spec j b); [tauto|]; reflexivity. Qed.

(** bubble-up-rec *)
Record BU (v : nat -> A) (n k : nat) : Prop := {
  b1 : forall j, 2 <= j <= n -> P v (j / 2) j;
  b2 : forall j, 4 <= j <= n -> j <> k -> P v (j / 4) j;
  b3 : 4 <= k -> forall c, 2 <= c <= n -> desc k c -> le (min_node k) (v (k / 4)) (v c)
}.

Lemma BU_stop v n k : BU v n k -> (4 <= k -> le (min_node k) (v (k / 4)) (v k)) -> H v n.
Proof.
  intros [B1 B2 B3] HS; split; [exact B1|].
  intros j Hj; destruct (Nat.eq_dec j k) as [->|N]; [|auto].
  unfold P; rewrite min_node_quarter by lia; auto with arith. apply HS; lia.
Qed.

Lemma BU_step v n k : 4 <= k <= n -> BU v n k -> le (min_node k) (v k) (v (k / 4)) ->
  BU (swapped v (k / 4) k) n (k / 4).
Proof.
  intros Hk [B1 B2 B3] L.
  set (g := k / 4) in *. set (m := min_node k) in *.
  assert (Mg : min_node g = m) by (apply min_node_quarter; lia).
  assert (Gk : g <> k) by (unfold g; lia).
  assert (Mp : min_node (k / 2) = negb m) by (apply min_node_half; lia).
  assert (Gp : k / 2 / 2 = g) by (unfold g; rewrite div4; reflexivity).
  assert (G1 : 1 <= g) by (unfold g; lia).
  assert (P1 : k / 2 <> k /\ k / 2 <> g) by (unfold g; lia).
  split.
  - intros j Hj; unfold P.
    destruct (Nat.eq_dec j k) as [->|Njk].
    { rewrite Mp, sw_r, sw_o by lia. apply (proj2 (le_flip _ _ _)).
      pose proof (B1 (k / 2) ltac:(lia)) as Q; unfold P in Q. rewrite Gp, Mg in Q; exact Q. }
    destruct (Nat.eq_dec j g) as [->|Njg].
    { rewrite (min_node_half g) by lia. rewrite Mg, sw_l, sw_o by (unfold g; lia).
      apply (proj2 (le_flip _ _ _)). eapply le_trans; [exact L|].
      pose proof (B1 g ltac:(lia)) as Q; unfold P in Q. rewrite (min_node_half g), Mg in Q by lia.
      exact (proj1 (le_flip _ _ _) Q). }
    rewrite (sw_o v g k j) by assumption.
    destruct (Nat.eq_dec (j / 2) k) as [E|N1].
    { rewrite E, sw_r. apply B3; [lia|lia|left; exact E]. }
    destruct (Nat.eq_dec (j / 2) g) as [E|N2].
    { rewrite E, sw_l, Mg. eapply le_trans; [exact L|].
      pose proof (B1 j ltac:(lia)) as Q; unfold P in Q. rewrite E, Mg in Q; exact Q. }
    rewrite sw_o by assumption. apply B1; lia.
  - intros j Hj Njg; unfold P.
    destruct (Nat.eq_dec j k) as [->|Njk].
    { fold g. rewrite sw_l, sw_r, Mg; exact L. }
    rewrite (sw_o v g k j) by assumption.
    destruct (Nat.eq_dec (j / 4) k) as [E|N1].
    { rewrite E, sw_r. apply B3; [lia|lia|right; exact E]. }
    destruct (Nat.eq_dec (j / 4) g) as [E|N2].
    { rewrite E, sw_l, Mg. eapply le_trans; [exact L|].
      pose proof (B2 j ltac:(lia) Njk) as Q; unfold P in Q. rewrite E, Mg in Q; exact Q. }
    rewrite sw_o by assumption. apply B2; lia.
  - intros Hg c Hc D. rewrite Mg.
    rewrite (sw_o v g k (g / 4)) by (unfold g; lia).
    assert (Q0 : le m (v (g / 4)) (v g)).
    { pose proof (B2 g ltac:(lia) Gk) as Q; unfold P in Q. rewrite min_node_quarter, Mg in Q by lia; exact Q. }
    destruct (Nat.eq_dec c k) as [->|Nck]; [rewrite sw_r; exact Q0|].
    assert (Ncg : c <> g) by (destruct D as [D|D]; lia).
    rewrite sw_o by assumption. eapply le_trans; [exact Q0|].
    destruct D as [D|D].
    + pose proof (B1 c Hc) as Q; unfold P in Q; rewrite D, Mg in Q; exact Q.
    + pose proof (B2 c ltac:(lia) Nck) as Q; unfold P in Q; rewrite D, Mg in Q; exact Q.
Qed.

(** entering bubble-up-rec from bh-bubble-up at the last node *)
Lemma BU_stay v k : 2 <= k -> H v (k - 1) -> le (min_node (k / 2)) (v (k / 2)) (v k) -> BU v k k.
Proof.
  intros Hk [H1 H2] L; split.
  - intros j Hj; destruct (Nat.eq_dec j k) as [->|N]; [exact L|apply H1; lia].
  - intros j Hj N; apply H2; lia.
  - intros K4 c Hc [D|D]; exfalso; lia.
Qed.
Lemma BU_swap v k : 2 <= k -> H v (k - 1) -> le (min_node (k / 2)) (v k) (v (k / 2)) ->
  BU (swapped v (k / 2) k) k (k / 2).
Proof.
  intros Hk [H1 H2] L.
  set (p := k / 2) in *. set (m := min_node p) in *.
  assert (Pk : p <> k) by (unfold p; lia).
  assert (P1 : 1 <= p) by (unfold p; lia).
  assert (M2 : 2 <= p -> min_node (p / 2) = negb m) by (intro; apply min_node_half; lia).
  split.
  - intros j Hj; unfold P.
    destruct (Nat.eq_dec j k) as [->|Njk].
    { fold p. rewrite sw_l, sw_r. exact L. }
    destruct (Nat.eq_dec j p) as [->|Njp].
    { rewrite M2, sw_l, sw_o by (unfold p; lia). apply (proj2 (le_flip _ _ _)). eapply le_trans; [exact L|].
      pose proof (H1 p ltac:(lia)) as Q; unfold P in Q. rewrite M2 in Q by lia. exact (proj1 (le_flip _ _ _) Q). }
    rewrite (sw_o v p k j) by assumption.
    destruct (Nat.eq_dec (j / 2) p) as [E|N2].
    { rewrite E, sw_l. eapply le_trans; [exact L|].
      pose proof (H1 j ltac:(lia)) as Q; unfold P in Q. rewrite E in Q; exact Q. }
    rewrite sw_o by (assumption || lia). apply H1; lia.
  - intros j Hj Njp; unfold P.
    destruct (Nat.eq_dec j k) as [->|Njk].
    { rewrite sw_r. rewrite div4. fold p. rewrite M2, sw_o by (unfold p; lia).
      pose proof (H1 p ltac:(unfold p in *; lia)) as Q; unfold P in Q. rewrite M2 in Q by (unfold p in *; lia). exact Q. }
    rewrite (sw_o v p k j) by assumption.
    rewrite sw_o by (unfold p; lia). apply H2; lia.
  - intros Hp c Hc D. fold m.
    rewrite (sw_o v p k (p / 4)) by (unfold p; lia).
    assert (Q0 : le m (v (p / 4)) (v p)).
    { pose proof (H2 p ltac:(lia)) as Q; unfold P in Q. rewrite min_node_quarter in Q by lia; exact Q. }
    destruct (Nat.eq_dec c k) as [->|Nck]; [rewrite sw_r; exact Q0|].
    destruct D as [D|D]; [|exfalso; unfold p in *; lia].
    rewrite sw_o by (assumption || lia). eapply le_trans; [exact Q0|].
    pose proof (H1 c ltac:(lia)) as Q; unfold P in Q; rewrite D in Q; exact Q.
Qed.

(** trickle-down-rec *)
Record TD (v : nat -> A) (n i : nat) : Prop := {
  t1 : forall j, 2 <= j <= n -> j / 2 <> i -> P v (j / 2) j;
  t2 : forall j, 4 <= j <= n -> j / 4 <> i -> P v (j / 4) j;
  t3 : 4 <= i -> forall c, 2 <= c <= n -> desc i c -> le (min_node i) (v (i / 4)) (v c)
}.
Lemma TD_stop v n i : 1 <= i -> TD v n i ->
  (forall c, 2 <= c <= n -> desc i c -> le (min_node i) (v i) (v c)) -> H v n.
Proof.
  intros Hi [T1 T2 T3] L; split; intros j Hj; unfold P.
  - destruct (Nat.eq_dec (j / 2) i) as [E|N]; [|apply T1; assumption].
    rewrite E; apply L; [lia|left; exact E].
  - destruct (Nat.eq_dec (j / 4) i) as [E|N]; [|apply T2; assumption].
    rewrite E; apply L; [lia|right; exact E].
Qed.

Lemma TD_child v n i p : 1 <= i -> TD v n i -> p / 2 = i -> p <= n ->
  le (min_node i) (v p) (v i) ->
  (forall c, 2 <= c <= n -> desc i c -> le (min_node i) (v p) (v c)) ->
  H (swapped v p i) n.
Proof.
  intros Hi [T1 T2 T3] Ep Hp L LA.
  set (m := min_node i) in *.
  assert (Mp : min_node p = negb m).
  { unfold m; rewrite <- Ep, min_node_half by lia. rewrite negb_involutive; reflexivity. }
  assert (Np : p <> i) by lia.
  assert (Pi : i / 2 < i) by lia.
  assert (M2 : 2 <= i -> min_node (i / 2) = negb m) by (intro; apply min_node_half; lia).
  assert (P4 : p / 4 = i / 2) by (rewrite div4, Ep; reflexivity).
  split; intros j Hj; unfold P.
  - destruct (Nat.eq_dec j i) as [->|Nji].
    { rewrite M2, sw_r, sw_o by lia.
      pose proof (T2 p ltac:(lia) ltac:(lia)) as Q; unfold P in Q. rewrite P4, M2 in Q by lia; exact Q. }
    destruct (Nat.eq_dec j p) as [->|Njp].
    { rewrite Ep, sw_l, sw_r; exact L. }
    rewrite (sw_o v p i j) by assumption.
    destruct (Nat.eq_dec (j / 2) i) as [E|N1].
    { rewrite E, sw_r; apply LA; [lia|left; exact E]. }
    destruct (Nat.eq_dec (j / 2) p) as [E|N2].
    { rewrite E, sw_l, Mp. apply (proj2 (le_flip _ _ _)). eapply le_trans; [|exact L].
      pose proof (T1 j ltac:(lia) N1) as Q; unfold P in Q. rewrite E, Mp in Q. exact (proj1 (le_flip _ _ _) Q). }
    rewrite sw_o by assumption. apply T1; assumption.
  - destruct (Nat.eq_dec j i) as [->|Nji].
    { rewrite min_node_quarter, sw_r, sw_o by lia. apply T3; [lia|lia|left; exact Ep]. }
    destruct (Nat.eq_dec j p) as [->|Njp].
    { rewrite P4, sw_l, M2, sw_o by lia.
      pose proof (T1 i ltac:(lia) ltac:(lia)) as Q; unfold P in Q. rewrite M2 in Q by lia; exact Q. }
    rewrite (sw_o v p i j) by assumption.
    destruct (Nat.eq_dec (j / 4) i) as [E|N1].
    { rewrite E, sw_r; apply LA; [lia|right; exact E]. }
    destruct (Nat.eq_dec (j / 4) p) as [E|N2].
    { rewrite E, sw_l, Mp. apply (proj2 (le_flip _ _ _)). eapply le_trans; [|exact L].
      pose proof (T2 j ltac:(lia) N1) as Q; unfold P in Q. rewrite E, Mp in Q. exact (proj1 (le_flip _ _ _) Q). }
    rewrite sw_o by assumption. apply T2; assumption.
Qed.

(** [w] is [v] with the contents of a grandchild [q] moved to [i], and the contents of [i] and
    [q]'s parent arranged in the parent and [q] *)
Lemma TD_grand v w n i q : 1 <= i -> TD v n i -> q / 4 = i -> q <= n ->
  (forall j, j <> i -> j <> q -> j <> q / 2 -> w j = v j) ->
  w i = v q ->
  (w q = v i /\ w (q / 2) = v (q / 2) \/
   w q = v (q / 2) /\ w (q / 2) = v i /\ le (min_node i) (v (q / 2)) (v i)) ->
  le (min_node i) (w q) (w (q / 2)) ->
  le (min_node i) (v q) (v i) ->
  (forall c, 2 <= c <= n -> desc i c -> le (min_node i) (v q) (v c)) ->
  TD w n q.
Proof.
  intros Hi [T1 T2 T3] Eq Hq Wo Wi Wqp Lxy L LA.
  set (m := min_node i) in *. set (p := q / 2) in *.
  assert (Ep : p / 2 = i) by (unfold p; rewrite <- div4; exact Eq).
  assert (Mp : min_node p = negb m).
  { unfold m; rewrite <- Ep, min_node_half by lia. rewrite negb_involutive; reflexivity. }
  assert (Mq : min_node q = m) by (unfold m; rewrite <- Eq, min_node_quarter by lia; reflexivity).
  assert (Np : p <> i /\ q <> i /\ q <> p /\ i < p /\ p < q) by (unfold p in *; lia).
  assert (M2 : 2 <= i -> min_node (i / 2) = negb m) by (intro; apply min_node_half; lia).
  assert (P4 : p / 4 = i / 2) by (rewrite div4, Ep; reflexivity).
  assert (Vqp : le m (v q) (v p)).
  { apply LA; [lia|left; exact Ep]. }
  assert (Wp : le m (v p) (w p)).
  { destruct Wqp as [[_ ->]|[_ [-> HH]]]; [apply le_refl|exact HH]. }
  assert (Wq : le m (v q) (w q)).
  { destruct Wqp as [[-> _]|[-> _]]; assumption. }
  assert (WpC : w p = v p \/ w p = v i) by tauto.
  clear Wqp. destruct Np as (Np1 & Np2 & Np3 & Np4 & Np5).
  split.
  - intros j Hj Nq; unfold P.
    destruct (Nat.eq_dec j i) as [->|Nji].
    { rewrite M2, Wi, Wo by lia. apply (proj2 (le_flip _ _ _)). eapply le_trans; [exact L|].
      pose proof (T1 i ltac:(lia) ltac:(lia)) as Q; unfold P in Q. rewrite M2 in Q by lia. exact (proj1 (le_flip _ _ _) Q). }
    destruct (Nat.eq_dec j p) as [->|Njp].
    { rewrite Ep, Wi. fold m. eapply le_trans; [exact Vqp|exact Wp]. }
    destruct (Nat.eq_dec j q) as [->|Njq].
    { fold p. rewrite Mp. apply (proj2 (le_flip _ _ _)); exact Lxy. }
    rewrite (Wo j) by assumption.
    destruct (Nat.eq_dec (j / 2) i) as [E|N1].
    { rewrite E, Wi; apply LA; [lia|left; exact E]. }
    destruct (Nat.eq_dec (j / 2) p) as [E|N2].
    { rewrite E, Mp. apply (proj2 (le_flip _ _ _)). eapply le_trans; [|exact Wp].
      pose proof (T1 j ltac:(lia) N1) as Q; unfold P in Q. rewrite E, Mp in Q. exact (proj1 (le_flip _ _ _) Q). }
    rewrite Wo by assumption. apply T1; assumption.
  - intros j Hj Nq; unfold P.
    destruct (Nat.eq_dec j i) as [->|Nji].
    { rewrite min_node_quarter, Wi, Wo by lia. apply T3; [lia|lia|right; exact Eq]. }
    destruct (Nat.eq_dec j p) as [->|Njp].
    { rewrite P4, M2, (Wo (i / 2)) by lia.
      destruct WpC as [->| ->].
      - pose proof (T2 p ltac:(lia) ltac:(lia)) as Q; unfold P in Q. rewrite P4, M2 in Q by lia; exact Q.
      - pose proof (T1 i ltac:(lia) ltac:(lia)) as Q; unfold P in Q. rewrite M2 in Q by lia; exact Q. }
    destruct (Nat.eq_dec j q) as [->|Njq].
    { rewrite Eq, Wi. exact Wq. }
    rewrite (Wo j) by assumption.
    destruct (Nat.eq_dec (j / 4) i) as [E|N1].
    { rewrite E, Wi; apply LA; [lia|right; exact E]. }
    destruct (Nat.eq_dec (j / 4) p) as [E|N2].
    { rewrite E, Mp. apply (proj2 (le_flip _ _ _)). eapply le_trans; [|exact Wp].
      pose proof (T2 j ltac:(lia) N1) as Q; unfold P in Q. rewrite E, Mp in Q. exact (proj1 (le_flip _ _ _) Q). }
    rewrite Wo by assumption. apply T2; assumption.
  - intros Q4 c Hc D. rewrite Eq, Mq, Wi.
    assert (Nc : c <> i /\ c <> q /\ c <> p) by (destruct D; lia).
    rewrite Wo by tauto.
    destruct D as [D|D].
    + pose proof (T1 c Hc ltac:(lia)) as Q; unfold P in Q. rewrite D, Mq in Q; exact Q.
    + pose proof (T2 c ltac:(lia) ltac:(lia)) as Q; unfold P in Q. rewrite D, Mq in Q; exact Q.
Qed.

(** the root is minimal, and one of its children (or itself) maximal *)
Lemma H_min v n : H v n -> forall j, 1 <= j <= n -> le true (v 1) (v j).
Proof.
  intros [H1 H2].
  assert (Hm : forall j, 1 <= j <= n -> min_node j = true -> le true (v 1) (v j)).
  { induction j as [j IH] using lt_wf_ind; intros Hj M.
    destruct (le_lt_dec 4 j) as [G|G].
    - pose proof (H2 j ltac:(lia)) as Q; unfold P in Q. rewrite min_node_quarter, M in Q by lia.
      eapply le_trans; [|exact Q]. apply IH; [lia|lia|]. rewrite min_node_quarter by lia; exact M.
    - assert (j = 1) as -> by (destruct j as [|[|[|[|]]]]; try lia; discriminate M). apply le_refl. }
  intros j Hj; destruct (min_node j) eqn:M; [auto|].
  assert (2 <= j) by (destruct j as [|[|]]; try lia; discriminate M).
  pose proof (H1 j ltac:(lia)) as Q; unfold P in Q. rewrite min_node_half, M in Q by lia.
  eapply le_trans; [|exact Q]. apply Hm; [lia|]. rewrite min_node_half, M by lia; reflexivity.
Qed.
Lemma H_max v n : H v n -> forall j, 2 <= j <= n -> le false (v 2) (v j) \/ (3 <= n /\ le false (v 3) (v j)).
Proof.
  intros [H1 H2].
  assert (Hm : forall j, 1 <= j <= n -> min_node j = false -> le false (v 2) (v j) \/ (3 <= n /\ le false (v 3) (v j))).
  { induction j as [j IH] using lt_wf_ind; intros Hj M.
    destruct (le_lt_dec 4 j) as [G|G].
    - pose proof (H2 j ltac:(lia)) as Q; unfold P in Q. rewrite min_node_quarter, M in Q by lia.
      destruct (IH (j / 4)) as [R|[R0 R]]; try lia. { rewrite min_node_quarter by lia; exact M. }
      + left; eapply le_trans; eassumption.
      + right; split; [lia|]; eapply le_trans; eassumption.
    - destruct j as [|[|[|[|]]]]; try lia; try discriminate M.
      + left; apply le_refl.
      + right; split; [lia|apply le_refl]. }
  intros j Hj; destruct (min_node j) eqn:M; [|apply Hm; [lia|assumption]].
  assert (4 <= j) by (destruct j as [|[|[|[|]]]]; try lia; discriminate M).
  pose proof (H1 j ltac:(lia)) as Q; unfold P in Q. rewrite min_node_half, M in Q by lia.
  destruct (Hm (j / 2)) as [R|[R0 R]]; try lia. { rewrite min_node_half, M by lia; reflexivity. }
  - left; eapply le_trans; eassumption.
  - right; split; [lia|]; eapply le_trans; eassumption.
Qed.
End HeapP.
