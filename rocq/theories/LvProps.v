(** Edit distances: the theorems. *)
From Coq Require Import List Bool Arith Lia.
From Verif Require Import LvModel LvSpec LvProofs LvProofs2.
Import ListNotations.

(** l-distance is the least number of deletions, insertions and substitutions that edit A into B, for any predicate
    elt=; with a cutoff it is that number if it is within the cutoff, and #f otherwise *)
Theorem l_distance_least : forall A elt (a b : list A) cutoff,
  exists n, least elt (@no_swap A) a b n /\ l_distance elt a b cutoff = cut cutoff n.
Proof. intros. apply l_distance_spec. Qed.
(** l-distances gives the same for each sequence *)
Theorem l_distances_each : forall A elt (a : list A) Bs cutoff i b, nth_error Bs i = Some b ->
  exists n, least elt (@no_swap A) a b n /\ nth_error (l_distances elt a Bs cutoff) i = Some (cut cutoff n).
Proof. intros A elt a Bs cutoff i b H. destruct (l_distance_spec elt a b cutoff) as (n & L & E). exists n. split; auto. unfold l_distances. rewrite nth_error_map, H. cbn. now rewrite E. Qed.
(** re-distance, for an equivalence elt=: the least number of operations, an adjacent transposition counting as one,
    among the scripts that do not transpose a pair with the first element of either sequence. Missing: such a pair. *)
Theorem re_distance_partial : forall A (elt : A -> A -> bool) (a b : list A) cutoff,
  (forall x y, elt x y = true -> elt y x = true) -> (forall x y z, elt x y = true -> elt y z = true -> elt x z = true) ->
  exists n, least elt (@inner_swaps A) a b n /\ re_distance elt a b cutoff = cut cutoff n.
Proof. intros. now apply re_distance_spec. Qed.
(** the full claim, over all scripts with transpositions, is false: "cat" to "act" is one transposition *)
Theorem re_distance_refuted :
  ~ (forall (a b : list nat), exists n, least Nat.eqb (fun _ => True) a b n /\ re_distance Nat.eqb a b None = Some n).
Proof.
  intro H. destruct (H [3; 1; 20] [1; 3; 20]) as (n & (_ & M) & E).
  assert (C : re_distance Nat.eqb [3; 1; 20] [1; 3; 20] None = Some 2) by reflexivity.
  rewrite C in E. injection E as <-. specialize (M [Swap 3 1 1 3; Same 20 20] I).
  assert (2 <= 1); [|lia]. apply M. split; [|split; reflexivity]. repeat constructor.
Qed.
(** the distance is 0 just for equal sequences *)
Lemma cost0 {A} (elt : A -> A -> bool) s : forall a b, edits elt s a b -> cost s = 0 -> Forall2 (fun x y => elt x y = true) a b.
Proof.
  induction s as [|o s IH]; intros a b (F & L & R) C; [subst; constructor|]. inversion F; subst.
  change (cost (o :: s)) with (cost1 o + cost s) in C. destruct o; cbn [cost1] in C; try lia. constructor; auto. apply IH; auto. repeat split; auto.
Qed.
Lemma same_script {A} (elt : A -> A -> bool) a b : Forall2 (fun x y => elt x y = true) a b -> exists s, no_swap s /\ edits elt s a b /\ cost s = 0.
Proof.
  induction 1 as [|x y a b H _ (s & N & (F & L & R) & C)]; [exists []; split; [intros x x' y y' []|repeat split; constructor]|].
  exists (Same x y :: s). split; [intros u u' v v' [J|J]; [discriminate|eapply N; eauto]|]. split; [|exact C]. split; [constructor; auto|].
  subst a b. split; reflexivity.
Qed.
Theorem l_distance_zero : forall A elt (a b : list A), l_distance elt a b None = Some 0 <-> Forall2 (fun x y => elt x y = true) a b.
Proof.
  intros A elt a b. destruct (l_distance_spec elt a b None) as (n & ((s & KS & ES & <-) & M) & ->). cbn [cut]. split; intro H.
  - injection H as H. eapply cost0; eauto.
  - destruct (same_script _ _ _ H) as (t & KT & ET & C). specialize (M t KT ET). f_equal. lia.
Qed.
(** elt= symmetric: the distance is symmetric *)
Definition flip {A} (o : op A) : op A := match o with Del x => Ins x | Ins y => Del y | Sub x y => Sub y x | Same x y => Same y x | Swap x x' y y' => Swap y y' x x' end.
Lemma flip_ok {A} (elt : A -> A -> bool) (Esym : forall x y, elt x y = true -> elt y x = true) s : forall a b,
  no_swap s -> edits elt s a b -> no_swap (map flip s) /\ edits elt (map flip s) b a /\ cost (map flip s) = cost s.
Proof.
  induction s as [|o s IH]; intros a b N (F & L & R); [subst; repeat split; auto; intros x x' y y' []|].
  inversion F; subst. destruct (IH (lhs s) (rhs s)) as (I1 & (I2 & I3 & I4) & I5); [intros x x' y y' J; eapply N; right; eauto|repeat split; auto|].
  assert (O : forall x x' y y', o <> Swap x x' y y') by (intros x x' y y' ->; eapply N; left; eauto).
  split; [intros x x' y y' [J|J]; [destruct o; cbn in J; try discriminate; injection J as <- <- <- <-; eapply O; reflexivity|eapply I1; eauto]|].
  split; [|unfold cost in *; cbn [map list_sum fold_right]; fold (list_sum (map cost1 (map flip s))); fold (list_sum (map cost1 s)); rewrite I5; destruct o; reflexivity].
  split; [cbn [map]; constructor; [destruct o; cbn in *; auto; exfalso; eapply O; reflexivity|exact I2]|].
  change (lhs (map flip (o :: s))) with (lhs1 (flip o) ++ lhs (map flip s)). change (rhs (map flip (o :: s))) with (rhs1 (flip o) ++ rhs (map flip s)).
  rewrite I3, I4. change (rhs (o :: s)) with (rhs1 o ++ rhs s). change (lhs (o :: s)) with (lhs1 o ++ lhs s). destruct o; auto.
Qed.
Theorem l_distance_symmetric : forall A elt (a b : list A) cutoff, (forall x y, elt x y = true -> elt y x = true) ->
  l_distance elt a b cutoff = l_distance elt b a cutoff.
Proof.
  intros A elt a b cutoff Es.
  destruct (l_distance_spec elt a b cutoff) as (n & ((s & KS & ES & CS) & M) & ->), (l_distance_spec elt b a cutoff) as (m & ((t & KT & ET & CT) & M') & ->).
  destruct (flip_ok elt Es s a b KS ES) as (F1 & F2 & F3), (flip_ok elt Es t b a KT ET) as (G1 & G2 & G3).
  specialize (M _ G1 G2). specialize (M' _ F1 F2). f_equal. lia.
Qed.
(** never more than without transpositions *)
Theorem re_distance_le_l_distance : forall A (elt : A -> A -> bool) (a b : list A) n m,
  (forall x y, elt x y = true -> elt y x = true) -> (forall x y z, elt x y = true -> elt y z = true -> elt x z = true) ->
  re_distance elt a b None = Some n -> l_distance elt a b None = Some m -> n <= m.
Proof.
  intros A elt a b n m Es Et E1 E2. destruct (re_distance_spec elt Es Et a b None) as (n' & (_ & M) & E1'), (l_distance_spec elt a b None) as (m' & ((s & KS & ES & <-) & _) & E2').
  rewrite E1 in E1'. rewrite E2 in E2'. injection E1' as ->. injection E2' as ->. apply M; auto. intros s1 x x' y y' s2 ->. exfalso. eapply KS. apply in_app_iff. right. now left.
Qed.

(** between the difference of the lengths and the greater length *)
Lemma len_bound {A} (s : list (op A)) : no_swap s -> length (lhs s) <= length (rhs s) + cost s /\ length (rhs s) <= length (lhs s) + cost s.
Proof.
  induction s as [|o s IH]; intro N; [cbn; lia|]. destruct IH as (I1 & I2); [intros x x' y y' J; eapply N; right; eauto|].
  change (lhs (o :: s)) with (lhs1 o ++ lhs s). change (rhs (o :: s)) with (rhs1 o ++ rhs s). change (cost (o :: s)) with (cost1 o + cost s).
  rewrite !app_length. destruct o; cbn [lhs1 rhs1 cost1 length]; lia.
Qed.
Lemma sub_script {A} (elt : A -> A -> bool) : forall a b : list A, exists s, no_swap s /\ edits elt s a b /\ cost s = Nat.max (length a) (length b).
Proof.
  induction a as [|x a IH]; intros b.
  - destruct (least_right elt _ kind_no_swap b) as ((s & H) & _). exists s. exact H.
  - destruct b as [|y b].
    + destruct (least_left elt _ kind_no_swap (x :: a)) as ((s & H) & _). exists s. exact H.
    + destruct (IH b) as (s & N & (F & L & R) & C). exists (Sub x y :: s). split; [intros u u' v v' [J|J]; [discriminate|eapply N; eauto]|].
      split; [split; [constructor; cbn; auto|subst a b; split; reflexivity]|]. change (cost (Sub x y :: s)) with (1 + cost s). rewrite C. cbn [length]. lia.
Qed.
Theorem l_distance_bounds : forall A elt (a b : list A) n, l_distance elt a b None = Some n ->
  length a - length b <= n /\ length b - length a <= n /\ n <= Nat.max (length a) (length b).
Proof.
  intros A elt a b n E. destruct (l_distance_spec elt a b None) as (m & ((s & KS & (F & <- & <-) & <-) & M) & E'). rewrite E in E'. injection E' as ->.
  destruct (len_bound s KS). destruct (sub_script elt (lhs s) (rhs s)) as (t & KT & ET & C). specialize (M t KT ET). lia.
Qed.

(** the triangle inequality, for a transitive elt= *)
Lemma compose {A} (elt : A -> A -> bool) (Et : forall x y z, elt x y = true -> elt y z = true -> elt x z = true) k :
  forall s t : list (op A), length s + length t <= k -> no_swap s -> no_swap t -> Forall (ok elt) s -> Forall (ok elt) t -> rhs s = lhs t ->
  exists u, no_swap u /\ edits elt u (lhs s) (rhs t) /\ cost u <= cost s + cost t.
Proof.
  assert (NT : forall o (s : list (op A)), no_swap (o :: s) -> no_swap s) by (intros o s N x x' y y' J; eapply N; right; eauto).
  assert (EMIT : forall o u a b, (forall x x' y y', o <> Swap x x' y y') -> ok elt o -> no_swap u -> edits elt u a b -> no_swap (o :: u) /\ edits elt (o :: u) (lhs1 o ++ a) (rhs1 o ++ b)).
  { intros o u a b N O NU (F & <- & <-). split; [intros x x' y y' [J|J]; [eapply N; eauto|eapply NU; eauto]|]. split; [constructor; auto|split; reflexivity]. }
  assert (CC : forall o (s : list (op A)), cost (o :: s) = cost1 o + cost s) by reflexivity.
  assert (LC : forall o (s : list (op A)), lhs (o :: s) = lhs1 o ++ lhs s) by reflexivity.
  assert (RC : forall o (s : list (op A)), rhs (o :: s) = rhs1 o ++ rhs s) by reflexivity.
  induction k as [|k IH]; intros s t LK NS NT' FS FT E.
  - destruct s, t; cbn in LK; try lia. exists []. repeat split; auto.
  - destruct s as [|o s].
    { exists t. split; auto. split; [|cbn; lia]. split; [exact FT|]. split; [now rewrite <- E|reflexivity]. }
    destruct t as [|p t].
    { exists (o :: s). split; auto. split; [|lia]. split; [exact FS|]. split; [reflexivity|exact E]. }
    assert (NS2 := NT _ _ NS). assert (NT2 := NT _ _ NT'). inversion FS as [|? ? O1 FS2]; subst. inversion FT as [|? ? O2 FT2]; subst. cbn [length] in LK.
    assert (NO : forall x x' y y', o <> Swap x x' y y') by (intros x x' y y' ->; eapply NS; left; eauto).
    assert (NP : forall x x' y y', p <> Swap x x' y y') by (intros x x' y y' ->; eapply NT'; left; eauto).
    assert (DEL : forall x, o = Del x -> exists u, no_swap u /\ edits elt u (lhs (o :: s)) (rhs (p :: t)) /\ cost u <= cost (o :: s) + cost (p :: t)).
    { intros x ->. destruct (IH s (p :: t)) as (u & U1 & U2 & U3); auto; [cbn [length]; lia|]. exists (Del x :: u).
      destruct (EMIT (Del x) u _ _ ltac:(discriminate) I U1 U2) as (V1 & V2). split; [exact V1|]. split; [exact V2|]. rewrite !CC in *. lia. }
    assert (INS : forall y, p = Ins y -> exists u, no_swap u /\ edits elt u (lhs (o :: s)) (rhs (p :: t)) /\ cost u <= cost (o :: s) + cost (p :: t)).
    { intros y ->. destruct (IH (o :: s) t) as (u & U1 & U2 & U3); auto; [cbn [length]; lia|]. exists (Ins y :: u).
      destruct (EMIT (Ins y) u _ _ ltac:(discriminate) I U1 U2) as (V1 & V2). split; [exact V1|]. split; [exact V2|]. rewrite !CC in *. cbn [cost1] in *. lia. }
    assert (STEP : rhs s = lhs t -> forall c : list (op A), length c <= 1 -> no_swap c -> Forall (ok elt) c -> lhs c = lhs1 o -> rhs c = rhs1 p -> cost c <= cost1 o + cost1 p ->
      exists u, no_swap u /\ edits elt u (lhs (o :: s)) (rhs (p :: t)) /\ cost u <= cost (o :: s) + cost (p :: t)).
    { intros E2 c _ NC FC L1 R1 C1. destruct (IH s t) as (u & U1 & (U2 & U3 & U4) & U5); auto; [lia|]. exists (c ++ u).
      split; [intros x x' y y' J; apply in_app_iff in J; destruct J; [eapply NC; eauto|eapply U1; eauto]|].
      split; [split; [apply Forall_app; auto|rewrite lhs_app, rhs_app, L1, R1, U3, U4; auto]|]. rewrite cost_app, !CC. lia. }
    assert (NS1 : forall q, (forall x x' y y', q <> Swap x x' y y') -> @no_swap A [q]) by (intros q N x x' y y' [J|[]]; eapply N; eauto).
    rewrite RC, LC in E.
    destruct o as [x|y|x y|x y|x x' y y']; [eapply DEL; eauto| | | |exfalso; eapply NO; eauto];
    (destruct p as [x0|y0|x0 y0|x0 y0|x0 x0' y0 y0']; [|eapply INS; eauto| | |exfalso; eapply NP; eauto]);
    cbn [rhs1 lhs1 app] in E; injection E as E1 E2; subst x0; specialize (STEP E2).
    + apply (STEP []); cbn; auto; intros ? ? ? ? [].
    + apply (STEP [Ins y0]); cbn; auto. apply NS1; discriminate.
    + apply (STEP [Ins y0]); cbn; auto. apply NS1; discriminate.
    + apply (STEP [Del x]); cbn; auto. apply NS1; discriminate.
    + apply (STEP [Sub x y0]); cbn; auto. apply NS1; discriminate.
    + apply (STEP [Sub x y0]); cbn; auto. apply NS1; discriminate.
    + apply (STEP [Del x]); cbn; auto. apply NS1; discriminate.
    + apply (STEP [Sub x y0]); cbn; auto. apply NS1; discriminate.
    + apply (STEP [Same x y0]); [cbn; auto|apply NS1; discriminate|constructor; [cbn in O1, O2 |- *; eauto|constructor]|reflexivity|reflexivity|cbn; lia].
Qed.
Theorem l_distance_triangle : forall A (elt : A -> A -> bool) (a b c : list A) ab bc ac,
  (forall x y z, elt x y = true -> elt y z = true -> elt x z = true) ->
  l_distance elt a b None = Some ab -> l_distance elt b c None = Some bc -> l_distance elt a c None = Some ac -> ac <= ab + bc.
Proof.
  intros A elt a b c ab bc ac Et E1 E2 E3.
  destruct (l_distance_spec elt a b None) as (n1 & ((s & KS & (F1 & L1 & R1) & C1) & _) & E1'), (l_distance_spec elt b c None) as (n2 & ((t & KT & (F2 & L2 & R2) & C2) & _) & E2'),
    (l_distance_spec elt a c None) as (n3 & (_ & M) & E3').
  rewrite E1 in E1'. rewrite E2 in E2'. rewrite E3 in E3'. injection E1' as ->. injection E2' as ->. injection E3' as ->.
  destruct (compose elt Et _ s t (le_n _) KS KT F1 F2) as (u & U1 & U2 & U3); [congruence|]. rewrite L1, R2 in U2. specialize (M u U1 U2). lia.
Qed.

(** Examples (modutil.texi): kitten sitting, and abc for ca with the restricted distance *)
Example ex_l : l_distance Nat.eqb [11;9;20;20;5;14] [19;9;20;20;9;14;7] None = Some 3. Proof. reflexivity. Qed.
Example ex_lc : l_distance Nat.eqb [11;9;20;20;5;14] [19;9;20;20;9;14;7] (Some 2) = None. Proof. reflexivity. Qed.
Example ex_lc3 : l_distance Nat.eqb [11;9;20;20;5;14] [19;9;20;20;9;14;7] (Some 3) = Some 3. Proof. reflexivity. Qed.
Example ex_re : re_distance Nat.eqb [0;0;1;2;3] [0;0;2;1;3] None = Some 1. Proof. reflexivity. Qed.
Example ex_re_l : l_distance Nat.eqb [0;0;1;2;3] [0;0;2;1;3] None = Some 2. Proof. reflexivity. Qed.
Example ex_cat : re_distance Nat.eqb [3;1;20] [1;3;20] None = Some 2. Proof. reflexivity. Qed.
Example ex_eqb_equiv : (forall x y, Nat.eqb x y = true -> Nat.eqb y x = true) /\ (forall x y z, Nat.eqb x y = true -> Nat.eqb y z = true -> Nat.eqb x z = true).
Proof. split; intros *; rewrite !Nat.eqb_eq; congruence. Qed.

Print Assumptions l_distance_least.
Print Assumptions l_distances_each.
Print Assumptions re_distance_partial.
Print Assumptions re_distance_refuted.
Print Assumptions l_distance_zero.
Print Assumptions l_distance_symmetric.
Print Assumptions re_distance_le_l_distance.
Print Assumptions l_distance_bounds.
Print Assumptions l_distance_triangle.
