From Coq Require Import List Bool Arith Lia Permutation Sorted.
From Verif Require Import CbModel CbSpec CbProofs Cb3Model Cb3Spec Cb3Proofs.
Import ListNotations.

Section C.
Context {A : Type}.
Variable eq : A -> A -> bool.
Hypothesis EQ : equivalence eq.
Implicit Types l set c p q seen pre : list A.
Notation count := (count eq).
Notation member := (member eq).
Notation same := (same eq).
Notation each := (Forall2 (fun x y => eq x y = true)).
Let Erefl x : eq x x = true. Proof. destruct EQ as (E1 & E2 & E3). eauto. Qed.
Let Esym x y : eq x y = true -> eq y x = true. Proof. destruct EQ as (E1 & E2 & E3). eauto. Qed.
Let Etrans x y z : eq x y = true -> eq y z = true -> eq x z = true. Proof. destruct EQ as (E1 & E2 & E3). eauto. Qed.
Fixpoint pl (G : list A -> list (list A)) pre p seen : list (list A) :=
  match p with
  | [] => []
  | x :: cdr => if member x seen then pl G (pre ++ [x]) cdr seen else map (cons x) (G (pre ++ cdr)) ++ pl G (pre ++ [x]) cdr (x :: seen)
  end.
Fixpoint ps (n : nat) set : list (list A) := match n with 0 => [[]] | S n => pl (ps n) [] set [] end.
Lemma pl_loop G set p : forall pre seen r, set = pre ++ p ->
  (fix loop i (seen p : list A) r := match p with
   | [] => rev r
   | x :: cdr => if member x seen then loop (i + 1) seen cdr r
                 else loop (i + 1) (x :: seen) cdr (fold_left (fun r subperm => (x :: subperm) :: r) (G (but_kth set i)) r)
   end) (length pre) seen p r = rev r ++ pl G pre p seen.
Proof.
  induction p as [|x p IH]; intros pre seen r E; [now rewrite app_nil_r|]. cbn [pl].
  assert (L : length pre + 1 = length (pre ++ [x])) by (rewrite app_length; reflexivity).
  assert (E2 : set = (pre ++ [x]) ++ p) by now rewrite <- app_assoc.
  destruct (member x seen); [rewrite L; now apply IH|].
  assert (B : but_kth set (length pre) = pre ++ p) by (rewrite E; apply but_kth_eq). rewrite B, L, IH by exact E2.
  rewrite fold_rev, rev_app_distr, rev_involutive, <- app_assoc. reflexivity.
Qed.
Lemma pl_ext G H p : forall pre seen, (forall x l1 l2, p = l1 ++ x :: l2 -> G (pre ++ l1 ++ l2) = H (pre ++ l1 ++ l2)) -> pl G pre p seen = pl H pre p seen.
Proof.
  induction p as [|x p IH]; intros pre seen E; [reflexivity|]. cbn [pl].
  assert (E' : forall y l1 l2, p = l1 ++ y :: l2 -> G ((pre ++ [x]) ++ l1 ++ l2) = H ((pre ++ [x]) ++ l1 ++ l2)).
  { intros y l1 l2 Q. rewrite <- app_assoc. apply (E y (x :: l1) l2). now rewrite Q. }
  rewrite !IH by exact E'. destruct (member x seen); auto. pose proof (E x [] p Logic.eq_refl) as Q. cbn [app] in Q. now rewrite Q.
Qed.
Lemma perms_star_ps k : forall set, length set <= k -> perms_star eq k set = ps (length set) set.
Proof.
  assert (E0 : forall k set, length set <= 2 -> perms_star eq k set = ps (length set) set).
  { intros k0 l H. destruct l as [|a [|b [|c l]]]; cbn [length] in H; try lia; destruct k0; try reflexivity;
      cbn; unfold Cb3Model.member; cbn; destruct (eq a b) eqn:E, (eq b a) eqn:F; try reflexivity; exfalso;
      try (assert (eq a b = true) by eauto); try (assert (eq b a = true) by eauto); congruence. }
  induction k as [|k IH]; intros l H; [apply E0; lia|]. destruct (Nat.le_gt_cases (length l) 2) as [L|L]; [auto|].
  destruct l as [|a [|b [|c l]]]; cbn [length] in L; try lia. set (set := a :: b :: c :: l) in *.
  transitivity (pl (perms_star eq k) [] set []).
  - exact (pl_loop (perms_star eq k) set set [] [] [] Logic.eq_refl).
  - change (ps (length set) set) with (pl (ps (length (b :: c :: l))) [] set []). apply pl_ext. intros x l1 l2 E. cbn [app].
    assert (Q : length (l1 ++ l2) = length (b :: c :: l)).
    { apply (f_equal (@length A)) in E. rewrite app_length in *. unfold set in E. cbn in E |- *. lia. }
    rewrite <- Q. apply IH. rewrite Q. unfold set in H. cbn in H |- *. lia.
Qed.
Lemma permutations_star_ps set : permutations_star eq set = ps (length set) set.
Proof. apply perms_star_ps. auto. Qed.
Lemma in_pl G p : forall pre seen d, In d (pl G pre p seen) -> exists l1 x l2 d', p = l1 ++ x :: l2 /\ d = x :: d' /\ In d' (G (pre ++ l1 ++ l2)) /\ member x seen = false.
Proof.
  induction p as [|x p IH]; intros pre seen d J; [destruct J|]. cbn [pl] in J.
  assert (T : forall seen', In d (pl G (pre ++ [x]) p seen') -> exists l1 y l2 d', x :: p = l1 ++ y :: l2 /\ d = y :: d' /\ In d' (G (pre ++ l1 ++ l2)) /\ member y seen' = false).
  { intros seen' K. destruct (IH _ _ _ K) as (l1 & y & l2 & d' & -> & -> & K2 & M). exists (x :: l1), y, l2, d'. repeat split; auto.
    now rewrite <- app_assoc in K2. }
  destruct (member x seen) eqn:M; [auto|]. apply in_app_iff in J. destruct J as [J|J].
  - apply in_map_iff in J. destruct J as (d' & <- & J). exists [], x, p, d'. auto.
  - destruct (T _ J) as (l1 & y & l2 & d' & E1 & E2 & E3 & E4). exists l1, y, l2, d'. repeat split; auto.
    unfold Cb3Model.member in *. cbn in E4. apply orb_false_iff in E4. tauto.
Qed.
Lemma ps_sound n : forall set d, length set = n -> In d (ps n set) -> Permutation set d.
Proof.
  induction n as [|n IH]; intros set d L J.
  - destruct set; [|discriminate]. destruct J as [<-|[]]. constructor.
  - apply in_pl in J. destruct J as (l1 & x & l2 & d' & -> & -> & J & _). cbn [app] in J. apply IH in J; [|rewrite app_length in *; cbn in L; lia].
    eapply Permutation_trans; [apply Permutation_sym, Permutation_middle|]. now apply perm_skip.
Qed.
Lemma ps_complete n : forall set q, length set = n -> same q set -> exists d, In d (ps n set) /\ each q d.
Proof.
  induction n as [|n IH]; intros set q L SM.
  - destruct set; [|discriminate]. exists []. split; [now left|]. destruct q as [|y q]; [constructor|]. specialize (SM y). rewrite count_cons, Erefl in SM. discriminate.
  - destruct q as [|y q].
    { destruct set as [|x set]; [discriminate|]. specialize (SM x). rewrite count_cons, Erefl in SM. discriminate. }
    cbn [ps].
    assert (G : forall p pre seen, set = pre ++ p -> (forall z, In z pre -> eq y z = false) -> member y seen = false ->
      exists d, In d (pl (ps n) pre p seen) /\ each (y :: q) d).
    { induction p as [|x p IHp]; intros pre seen E N M.
      - exfalso. rewrite app_nil_r in E. subst pre. assert (C : 0 < count y set) by (rewrite <- SM, count_cons, Erefl; lia).
        apply count_pos in C. destruct C as (l1 & z & l2 & -> & Q). rewrite N in Q; [discriminate|]. apply in_app_iff. right. now left.
      - cbn [pl]. destruct (eq y x) eqn:X.
        + rewrite <- (member_eq eq EQ y x seen X), M. destruct (IH (pre ++ p) q) as (d & J & F).
          * subst set. rewrite app_length in *. cbn in L. lia.
          * intro z. specialize (SM z). rewrite E, count_mid, count_cons in SM.
            assert (EZ : eq z x = eq z y).
            { destruct (eq z y) eqn:F; [eauto|]. destruct (eq z x) eqn:F2; auto. assert (eq z y = true) by eauto. congruence. }
            rewrite EZ in SM. lia.
          * exists (x :: d). split; [apply in_app_iff; left; now apply in_map|constructor; auto].
        + assert (N' : forall z, In z (pre ++ [x]) -> eq y z = false).
          { intros z J. apply in_app_iff in J. destruct J as [J|[<-|[]]]; auto. }
          assert (E' : set = (pre ++ [x]) ++ p) by now rewrite <- app_assoc.
          destruct (member x seen); [now apply IHp|]. destruct (IHp (pre ++ [x]) (x :: seen) E' N') as (d & J & F).
          * unfold Cb3Model.member in *. cbn. now rewrite X, M.
          * exists d. split; auto. apply in_app_iff. auto. }
    apply G; auto. intros z [].
Qed.
Lemma ps_distinct n : forall set, ForallOrdPairs (fun c d => ~ each c d) (ps n set).
Proof.
  induction n as [|n IH]; intro set; [repeat constructor|]. cbn [ps]. generalize (@nil A) at 1. generalize (@nil A).
  induction set as [|x set IHs]; intros seen pre; cbn [pl]; [constructor|]. destruct (member x seen); auto. apply fop_app; auto.
  - eapply fop_map; [|apply IH]. intros c d N H. apply N. inversion H; auto.
  - intros c d J K H. apply in_map_iff in J. destruct J as (c' & <- & _). apply in_pl in K. destruct K as (l1 & y & l2 & d' & _ & -> & _ & M).
    inversion H; subst. unfold Cb3Model.member in M. cbn in M. assert (Q : eq y x = true) by eauto. rewrite Q in M. discriminate.
Qed.
End C.
