(** Combinations and permutations: the theorems. *)
From Coq Require Import List Bool Arith Lia Permutation Sorted Factorial.
From Verif Require Import CbModel CbSpec CbProofs.
Import ListNotations.

(** combinations: just the selections of n elements, in the order of the set *)
Theorem combinations_all : forall A (set : list A) n c, In c (combinations set n) <-> subl c set /\ length c = n.
Proof. intros. rewrite combinations_choose. apply in_choose. Qed.
(** each once *)
Theorem combinations_nodup : forall A (set : list A) n, NoDup set -> NoDup (combinations set n).
Proof. intros. rewrite combinations_choose. now apply choose_nodup. Qed.
Theorem combinations_count : forall A (set : list A) n, length (combinations set n) = binom (length set) n.
Proof. intros. rewrite combinations_choose. apply choose_len. Qed.
(** in lexicographic order of the positions; by position, not by value *)
Theorem combinations_lexicographic : forall A (R : A -> A -> Prop) set n, StronglySorted R set -> StronglySorted (lex R) (combinations set n).
Proof. intros. rewrite combinations_choose. now apply choose_lex. Qed.
Theorem combinations_map : forall A B (f : A -> B) set n, combinations (map f set) n = map (map f) (combinations set n).
Proof. intros. apply choose_map. Qed.
(** combinations-for-each calls its procedure on the same, in the same order *)
Theorem combinations_for_each_same : forall A S n (proc : list A -> S -> S) set s,
  combinations_for_each n proc set s = fold_left (fun s c => proc c s) (combinations set n) s.
Proof. intros. rewrite combinations_choose. apply cfe_spec. Qed.

(** permutations: just the permutations of the set, each once, n! in number, in lexicographic order *)
Theorem permutations_all : forall A (set p : list A), In p (permutations set) <-> Permutation set p.
Proof. intros. rewrite permutations_lperms. now apply in_lperms. Qed.
Theorem permutations_nodup : forall A (set : list A), NoDup set -> NoDup (permutations set).
Proof. intros. rewrite permutations_lperms. now apply lperms_nodup. Qed.
Theorem permutations_count : forall A (set : list A), length (permutations set) = fact (length set).
Proof. intros. rewrite permutations_lperms. now apply lperms_len. Qed.
Theorem permutations_lexicographic : forall A (R : A -> A -> Prop) set, StronglySorted R set -> StronglySorted (lex R) (permutations set).
Proof. intros. rewrite permutations_lperms. now apply lperms_lex. Qed.
(** permutations-for-each calls its procedure on the same, in the same order, if the set is not empty *)
Theorem permutations_for_each_partial : forall A S (proc : list A -> S -> S) set s, set <> [] ->
  permutations_for_each proc set s = fold_left (fun s p => proc p s) (permutations set) s.
Proof. intros. now apply pfe_spec. Qed.
(** missing: the empty set has one permutation, and permutations-for-each does not call its procedure *)
Theorem permutations_for_each_refuted : ~ (forall (proc : list nat -> nat -> nat) set s,
  permutations_for_each proc set s = fold_left (fun s p => proc p s) (permutations set) s).
Proof. intro H. specialize (H (fun _ n => n + 1) [] 0). discriminate. Qed.

(** Examples *)
Example ex_comb : combinations [1;2;3;4] 2 = [[1;2];[1;3];[1;4];[2;3];[2;4];[3;4]]. Proof. reflexivity. Qed.
Example ex_comb_few : combinations [1;2] 3 = []. Proof. reflexivity. Qed.
Example ex_cfe : combinations_for_each 2 (fun c s => s ++ [c]) [1;2;3] [] = [[1;2];[1;3];[2;3]]. Proof. reflexivity. Qed.
Example ex_perm4 : firstn 7 (permutations [1;2;3;4]) = [[1;2;3;4];[1;2;4;3];[1;3;2;4];[1;3;4;2];[1;4;2;3];[1;4;3;2];[2;1;3;4]]. Proof. reflexivity. Qed.
Example ex_pfe5 : length (permutations_for_each (fun p s => p :: s) [1;2;3;4;5] []) = 120. Proof. reflexivity. Qed.
Example ex_sorted : StronglySorted lt [1;2;3;4] /\ NoDup [1;2;3;4].
Proof. split; repeat constructor; cbn; lia. Qed.

Print Assumptions combinations_all.
Print Assumptions combinations_nodup.
Print Assumptions combinations_count.
Print Assumptions combinations_lexicographic.
Print Assumptions combinations_map.
Print Assumptions combinations_for_each_same.
Print Assumptions permutations_all.
Print Assumptions permutations_nodup.
Print Assumptions permutations_count.
Print Assumptions permutations_lexicographic.
Print Assumptions permutations_for_each_partial.
Print Assumptions permutations_for_each_refuted.
