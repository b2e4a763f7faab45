(** C57: lcs gives a longest common subsequence; the edit lists made from it turn one list into the other with
    the fewest changes. *)
From Coq Require Import List Bool Arith ZArith Lia.
From Verif Require Import LcModel LcSpec LcProofs LcProofs2.
Import ListNotations.
Local Open Scope Z_scope.

(** For any predicate: the result pairs elements of a, in order, with elements of b that eq relates them to, at the
    positions it gives, and no such pairing is longer. *)
Theorem lcs_with_positions_longest {A} (eq : A -> A -> bool) a b : exists l,
  lcs_with_positions eq a b = Some (Z.of_nat (length l), l) /\ pairing eq a b l /\
  forall l', pairing eq a b l' -> (length l' <= length l)%nat.
Proof. destruct (lwp_spec eq a b) as (m & l & E & -> & P & MX). eauto. Qed.
(** lcs with an equality *)
Theorem lcs_longest {A} (eq : A -> A -> bool) a b : (forall x y, eq x y = true <-> x = y) ->
  exists s, lcs eq a b = Some s /\ subseq s a /\ subseq s b /\
  forall s', subseq s' a -> subseq s' b -> (length s' <= length s)%nat.
Proof.
  intro EQ. destruct (best eq a b) as (l & sc & E & T & K & MX & _). exists (kept sc).
  assert (ER : forall x, eq x x = true) by (intro x; now apply EQ).
  split; [unfold lcs; now rewrite E, K|]. split; [eapply kept_a; eauto|]. split; [eapply kept_b; eauto; intros; now apply EQ|].
  intros s' Sa Sb. destruct (subseq_turns eq ER s' a Sa b Sb) as (s2 & T2 & L2). specialize (MX s2 T2).
  apply turns_length in T, T2. lia.
Qed.
(** lcs-fold folds along a script that turns a into b with the fewest changes; the script does not depend on the
    procedures *)
Theorem lcs_fold_script {A} (eq : A -> A -> bool) a b : exists sc, turns eq sc a b /\
  (forall sc', turns eq sc' a b -> (changes sc <= changes sc')%nat) /\
  forall (S : Type) (fa fb fc : A -> S -> S) seed, lcs_fold eq fa fb fc seed a b = Some (run fa fb fc sc seed).
Proof. destruct (best eq a b) as (l & sc & _ & T & _ & MX & R). eauto. Qed.
(** lcs-edit-list: the hunks are the changes of a shortest script, broken where something is kept *)
Theorem lcs_edit_list_hunks {A} (eq : A -> A -> bool) a b : exists sc hs, lcs_edit_list eq a b = Some hs /\ turns eq sc a b /\
  (forall sc', turns eq sc' a b -> (changes sc <= changes sc')%nat) /\
  hs = together [] (number 0 0 sc) /\ ~ In [] hs.
Proof.
  destruct (best eq a b) as (l & sc & _ & T & _ & MX & R). exists sc. eexists. split; [unfold lcs_edit_list; rewrite R; reflexivity|].
  split; auto. split; auto. rewrite run_edit. cbn [hunks hunk apos bpos rev app]. change (-1 + 1) with 0. split; auto. apply together_ne.
Qed.
(** What the edit list says: every command names the element at its position; without the removed elements a is b
    without the added ones; and no other choice of positions does that with fewer commands. *)
Theorem lcs_edit_list_turns {A} (eq : A -> A -> bool) a b : exists hs, lcs_edit_list eq a b = Some hs /\
  let es := concat hs in
  (forall i e, In (Rm i e) es -> 0 <= i /\ nth_error a (Z.to_nat i) = Some e) /\
  (forall j e, In (Ad j e) es -> 0 <= j /\ nth_error b (Z.to_nat j) = Some e) /\
  Forall2 (fun x y => eq x y = true) (others (removed es) a) (others (added es) b) /\
  forall is js, Forall2 (fun x y => eq x y = true) (others is a) (others js b) -> (length es <= length is + length js)%nat.
Proof.
  destruct (best eq a b) as (l & sc & _ & T & _ & MX & R). eexists. split; [unfold lcs_edit_list; rewrite R; reflexivity|].
  rewrite run_edit. cbn [hunks hunk apos bpos rev app]. change (-1 + 1) with 0. rewrite concat_together. cbn [app]. split; [|split; [|split]].
  - intros i e J. apply (edits_nth eq _ _ _ T) in J. now rewrite Z.sub_0_r in J.
  - intros j e J. apply (edits_nth eq _ _ _ T) in J. now rewrite Z.sub_0_r in J.
  - apply (others_turns eq _ _ _ T 0%nat 0%nat).
  - intros is js F. rewrite somes_length. destruct (others_script eq a b is js F) as (s & Ts & K). specialize (MX s Ts).
    apply turns_length in Ts. pose proof (Forall2_len _ _ _ F) as L. pose proof (others_len eq is a 0) as La. pose proof (others_len eq js b 0) as Lb.
    unfold others_at in *. unfold others in L. lia.
Qed.
(** concrete cases *)
Example lcs_ex : lcs Nat.eqb [1;2;3;4;5;6;7]%nat [2;9;4;5;1;7;7]%nat = Some [2;4;5;7]%nat.
Proof. vm_compute. reflexivity. Qed.
Example lcs_edit_ex : lcs_edit_list Nat.eqb [1;2;3;4;5;6;7]%nat [2;9;4;5;1;7;7]%nat =
  Some [[Rm 0 1]; [Rm 2 3; Ad 1 9]; [Rm 5 6; Ad 4 1]; [Ad 6 7]]%nat.
Proof. vm_compute. reflexivity. Qed.
Example lcs_eq_ex : forall x y, Nat.eqb x y = true <-> x = y.
Proof. exact Nat.eqb_eq. Qed.

Print Assumptions lcs_with_positions_longest.
Print Assumptions lcs_longest.
Print Assumptions lcs_fold_script.
Print Assumptions lcs_edit_list_hunks.
Print Assumptions lcs_edit_list_turns.
