(** Multiset power sets and permutations*-for-each: the theorems. eq is an equivalence. *)
From Coq Require Import List Bool Arith Lia Permutation Sorted.
From Verif Require Import CbModel CbSpec CbProofs Cb3Model Cb3Spec Cb3Proofs Cb3Proofs2 Cb4Model Cb4Proofs.
Import ListNotations.

(** power-set*: selections from the set, every part of the multiset among them, no two the same multiset, smaller ones first *)
Theorem power_set_star_sound : forall A (eq : A -> A -> bool) set d, equivalence eq -> In d (power_set_star eq set) -> subl d set.
Proof. intros. eapply pss_sound; eauto. Qed.
Theorem power_set_star_complete : forall A (eq : A -> A -> bool) set c, equivalence eq -> part eq c set ->
  exists d, In d (power_set_star eq set) /\ same eq c d.
Proof. intros. now apply pss_complete. Qed.
Theorem power_set_star_distinct : forall A (eq : A -> A -> bool) set, equivalence eq -> ForallOrdPairs (fun c d => ~ same eq c d) (power_set_star eq set).
Proof. intros. now apply pss_distinct. Qed.
Theorem power_set_star_ordered : forall A (eq : A -> A -> bool) set, equivalence eq -> StronglySorted (fun a b => length a <= length b) (power_set_star eq set).
Proof. intros. now apply pss_sizes. Qed.
Theorem power_set_star_for_each_same : forall A S (eq : A -> A -> bool) (proc : list A -> S -> S) set s,
  power_set_star_for_each eq proc set s = fold_left (fun s c => proc c s) (power_set_star eq set) s.
Proof. intros. apply pssfe_spec. Qed.

(** permutations*-for-each calls its procedure on what permutations* returns, in that order, if the set is not empty *)
Theorem permutations_star_for_each_partial : forall A S (eq : A -> A -> bool) (proc : list A -> S -> S) set s, equivalence eq -> set <> [] ->
  permutations_star_for_each eq proc set s = fold_left (fun s p => proc p s) (permutations_star eq set) s.
Proof. intros. rewrite permutations_star_ps by auto. now apply psfe_spec. Qed.
(** missing: the empty set has one arrangement, and permutations*-for-each does not call its procedure *)
Theorem permutations_star_for_each_refuted : ~ (forall (proc : list nat -> nat -> nat) set s,
  permutations_star_for_each Nat.eqb proc set s = fold_left (fun s p => proc p s) (permutations_star Nat.eqb set) s).
Proof. intro H. specialize (H (fun _ n => n + 1) [] 0). discriminate. Qed.

(** Examples *)
Example ex_power_star : power_set_star Nat.eqb [1;2;1] = [[];[1];[2];[1;2];[1;1];[1;2;1]]. Proof. reflexivity. Qed.
Example ex_psfe : power_set_star_for_each Nat.eqb (fun c s => s ++ [c]) [1;1] [] = [[];[1];[1;1]]. Proof. reflexivity. Qed.
Example ex_permfe : permutations_star_for_each Nat.eqb (fun c s => s ++ [c]) [1;2;1] [] = [[1;2;1];[1;1;2];[2;1;1]]. Proof. reflexivity. Qed.
Example ex_part4 : equivalence Nat.eqb /\ part Nat.eqb [2;1] [1;2;1].
Proof. split; [repeat split; intros *; rewrite ?Nat.eqb_eq; congruence|]. intro x; destruct x as [|[|[|x]]]; cbn; lia. Qed.

Print Assumptions power_set_star_sound.
Print Assumptions power_set_star_complete.
Print Assumptions power_set_star_distinct.
Print Assumptions power_set_star_ordered.
Print Assumptions power_set_star_for_each_same.
Print Assumptions permutations_star_for_each_partial.
Print Assumptions permutations_star_for_each_refuted.
