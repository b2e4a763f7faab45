From Coq Require Import List Bool Arith Lia Permutation Sorted.
From Verif Require Import CbModel CbSpec CbProofs Cb3Model Cb3Spec Cb3Proofs Cb3Proofs2 Cb4Model.
Import ListNotations.

Section C.
Context {A S : Type}.
Variable eq : A -> A -> bool.
Hypothesis EQ : equivalence eq.
Implicit Types set p pre seen : list A.
Notation member := (member eq).
Lemma pfl_loop (E : (list A -> S -> S) -> list A -> S -> S) G (proc : list A -> S -> S) set p : forall pre seen s, set = pre ++ p ->
  (forall x l1 l2, p = l1 ++ x :: l2 -> forall s, E (fun t => proc (x :: t)) (pre ++ l1 ++ l2) s = fold_left (fun s t => proc (x :: t) s) (G (pre ++ l1 ++ l2)) s) ->
  (fix loop i (seen p : list A) (s : S) := match p with
   | [] => s
   | x :: cdr => if member x seen then loop (i + 1) seen cdr s
                 else loop (i + 1) (x :: seen) cdr (E (fun subperm => proc (x :: subperm)) (but_kth set i) s)
   end) (length pre) seen p s = fold_left (fun s t => proc t s) (pl eq G pre p seen) s.
Proof.
  induction p as [|x p IH]; intros pre seen s Q H; [reflexivity|]. cbn [pl].
  assert (L : length pre + 1 = length (pre ++ [x])) by (rewrite app_length; reflexivity).
  assert (Q2 : set = (pre ++ [x]) ++ p) by now rewrite <- app_assoc.
  assert (H2 : forall y l1 l2, p = l1 ++ y :: l2 -> forall s, E (fun t => proc (y :: t)) ((pre ++ [x]) ++ l1 ++ l2) s = fold_left (fun s t => proc (y :: t) s) (G ((pre ++ [x]) ++ l1 ++ l2)) s).
  { intros y l1 l2 K s'. rewrite <- app_assoc. apply (H y (x :: l1) l2). now rewrite K. }
  destruct (member x seen); [rewrite L; now apply IH|].
  assert (B : but_kth set (length pre) = pre ++ p) by (rewrite Q; apply but_kth_eq). rewrite B, L, IH by assumption.
  rewrite fold_left_app, fold_left_map. f_equal. apply (H x [] p Logic.eq_refl).
Qed.
Lemma psfe_spec k : forall (proc : list A -> S -> S) set s, length set <= k -> set <> [] ->
  perms_star_for_each eq k proc set s = fold_left (fun s t => proc t s) (ps eq (length set) set) s.
Proof.
  assert (E0 : forall k (proc : list A -> S -> S) set s, length set <= 2 -> set <> [] -> perms_star_for_each eq k proc set s = fold_left (fun s t => proc t s) (ps eq (length set) set) s).
  { intros k0 proc set s H N. rewrite <- (perms_star_ps eq EQ (length set) set) by auto.
    destruct set as [|a [|b [|c set]]]; cbn [length] in H; try lia; try congruence; destruct k0; cbn; auto; destruct (eq a b); auto. }
  induction k as [|k IH]; intros proc set s H N; [apply E0; auto; lia|]. destruct (Nat.le_gt_cases (length set) 2) as [L|L]; [auto|].
  destruct set as [|a [|b [|c l]]]; cbn [length] in L; try lia. set (st := a :: b :: c :: l) in *.
  change (ps eq (length st) st) with (pl eq (ps eq (length (b :: c :: l))) [] st []).
  apply (pfl_loop (perms_star_for_each eq k) (ps eq (length (b :: c :: l))) proc st st [] [] s Logic.eq_refl).
  intros x l1 l2 E s'. cbn [app].
  assert (Q : length (l1 ++ l2) = length (b :: c :: l)).
  { apply (f_equal (@length A)) in E. rewrite app_length in *. unfold st in E. cbn in E |- *. lia. }
  rewrite <- Q. apply (IH (fun t => proc (x :: t))); [rewrite Q; unfold st in H; cbn in H |- *; lia|]. intro Z0. rewrite Z0 in Q. discriminate.
Qed.
Lemma power_star_eq set k : forall i, i + k = length set + 1 -> power_star_loop eq k set i = flat_map (fun i => combinations_star eq i set) (seq i k).
Proof.
  induction k as [|k IH]; intros i H; cbn [power_star_loop]; [destruct (Nat.ltb_spec (length set) i); [auto|lia]|].
  destruct (Nat.ltb_spec (length set) i); [lia|]. cbn [seq flat_map]. rewrite IH by lia. now rewrite Nat.add_1_r.
Qed.
Lemma part_len c : forall l : list A, part eq c l -> length c <= length l.
Proof.
  destruct EQ as (E1 & E2 & E3). induction c as [|x c IH]; intros l P; [cbn; lia|]. assert (P1 := P x). rewrite count_cons, E1 in P1.
  destruct (count_pos eq x l) as (l1 & y & l2 & -> & Q); [lia|]. specialize (IH (l1 ++ l2)). rewrite app_length in *. cbn [length].
  assert (length c <= length l1 + length l2); [|lia]. apply IH. intro z. specialize (P z). rewrite count_mid, count_cons in P.
  assert (EZ : eq z y = eq z x).
  { destruct (eq z x) eqn:F; [eauto|]. destruct (eq z y) eqn:F2; auto. assert (eq z x = true) by eauto. congruence. }
  rewrite EZ in P. lia.
Qed.
Lemma same_len c d : same eq c d -> length c = length d.
Proof. intro H. apply Nat.le_antisymm; apply part_len; intro x; rewrite (H x); auto. Qed.
Lemma pss_complete set c : part eq c set -> exists d, In d (power_set_star eq set) /\ same eq c d.
Proof.
  intro P. destruct (cs_complete eq EQ (length c) set c Logic.eq_refl P) as (d & J & Sd). exists d. split; auto.
  unfold power_set_star. rewrite power_star_eq by auto. apply in_flat_map. exists (length c). split; auto. apply in_seq. pose proof (part_len _ _ P). lia.
Qed.
Lemma pss_sound set d : In d (power_set_star eq set) -> subl d set.
Proof.
  unfold power_set_star. rewrite power_star_eq by auto. rewrite in_flat_map. intros (i & _ & J). now apply cs_sound in J.
Qed.
Lemma pss_distinct set : ForallOrdPairs (fun c d => ~ same eq c d) (power_set_star eq set).
Proof.
  unfold power_set_star. rewrite power_star_eq by auto. generalize 0 (length set + 1). intros i k. revert i. induction k as [|k IH]; intro i; cbn [seq flat_map]; [constructor|].
  apply fop_app; auto; [now apply cs_distinct|]. intros c d J K H. apply same_len in H. apply in_flat_map in K. destruct K as (j & K1 & K2).
  apply cs_sound in J, K2. apply in_seq in K1. lia.
Qed.
Lemma pss_sizes set : StronglySorted (fun a b => length a <= length b) (power_set_star eq set).
Proof.
  unfold power_set_star. rewrite power_star_eq by auto. generalize 0 (length set + 1). intros i k. revert i. induction k as [|k IH]; intro i; cbn [seq flat_map]; [constructor|].
  apply ss_app; auto.
  - assert (G : forall c, In c (combinations_star eq i set) -> length c = i) by (intros c J; now apply cs_sound in J).
    induction (combinations_star eq i set) as [|c X IHX]; constructor; [apply IHX; intros d J; apply G; now right|]. apply Forall_forall. intros d J.
    rewrite (G c), (G d); auto; [now right|now left].
  - intros c d J J2. apply in_flat_map in J2. destruct J2 as (j & J1 & J2). apply cs_sound in J, J2. apply in_seq in J1. lia.
Qed.
Lemma pssfe_spec (l : list A) (proc : list A -> S -> S) k : forall i s, power_star_for_each_loop eq k proc l i s = fold_left (fun s c => proc c s) (power_star_loop eq k l i) s.
Proof.
  induction k as [|k IH]; intros i s; cbn [power_star_for_each_loop power_star_loop]; destruct (length l <? i); auto.
  rewrite fold_left_app, IH. f_equal. apply csfe_spec.
Qed.
End C.
