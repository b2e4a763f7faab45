(** Combinations and permutations of multisets: the theorems. eq is an equivalence. *)
From Coq Require Import List Bool Arith Lia Permutation Sorted.
From Verif Require Import CbModel CbSpec CbProofs Cb3Model Cb3Spec Cb3Proofs Cb3Proofs2.
Import ListNotations.

(** combinations*: selections of n elements from the set *)
Theorem combinations_star_sound : forall A (eq : A -> A -> bool) n set d, In d (combinations_star eq n set) -> subl d set /\ length d = n.
Proof. intros. eapply cs_sound; eauto. Qed.
(** every multiset of n elements that is part of the set is among them *)
Theorem combinations_star_complete : forall A (eq : A -> A -> bool) n set c, equivalence eq -> length c = n -> part eq c set ->
  exists d, In d (combinations_star eq n set) /\ same eq c d.
Proof. intros. apply cs_complete; auto. Qed.
(** and no two of them are the same multiset *)
Theorem combinations_star_distinct : forall A (eq : A -> A -> bool) n set, equivalence eq ->
  ForallOrdPairs (fun c d => ~ same eq c d) (combinations_star eq n set).
Proof. intros. apply cs_distinct; auto. Qed.
(** the for-each form calls its procedure on the same, in the same order *)
Theorem combinations_star_for_each_same : forall A S (eq : A -> A -> bool) n (proc : list A -> S -> S) set s,
  combinations_star_for_each eq n proc set s = fold_left (fun s c => proc c s) (combinations_star eq n set) s.
Proof. intros. apply csfe_spec. Qed.

(** permutations*: permutations of the set *)
Theorem permutations_star_sound : forall A (eq : A -> A -> bool) set d, equivalence eq -> In d (permutations_star eq set) -> Permutation set d.
Proof. intros A eq set d E H. rewrite permutations_star_ps in H by auto. eapply ps_sound; eauto. Qed.
(** every arrangement of the multiset is among them, element by element up to eq *)
Theorem permutations_star_complete : forall A (eq : A -> A -> bool) set q, equivalence eq -> same eq q set ->
  exists d, In d (permutations_star eq set) /\ Forall2 (fun x y => eq x y = true) q d.
Proof. intros A eq set q E H. rewrite permutations_star_ps by auto. apply ps_complete; auto. Qed.
(** and no two of them are equal element by element *)
Theorem permutations_star_distinct : forall A (eq : A -> A -> bool) set, equivalence eq ->
  ForallOrdPairs (fun c d => ~ Forall2 (fun x y => eq x y = true) c d) (permutations_star eq set).
Proof. intros A eq set E. rewrite permutations_star_ps by auto. apply ps_distinct; auto. Qed.

(** Examples *)
Example ex_comb_star : combinations_star Nat.eqb 2 [1;2;1;2] = [[1;2];[1;1];[2;2]]. Proof. reflexivity. Qed.
Example ex_perm_star : permutations_star Nat.eqb [1;2;1] = [[1;2;1];[1;1;2];[2;1;1]]. Proof. reflexivity. Qed.
Example ex_csfe : combinations_star_for_each Nat.eqb 2 (fun c s => s ++ [c]) [1;1;2] [] = [[1;1];[1;2]]. Proof. reflexivity. Qed.
Example ex_equiv : equivalence Nat.eqb.
Proof. repeat split; intros *; rewrite ?Nat.eqb_eq; congruence. Qed.
Example ex_part : part Nat.eqb [2;1] [1;2;1;2] /\ same Nat.eqb [2;1;1] [1;2;1].
Proof. split; intro x; destruct x as [|[|[|x]]]; cbn; lia. Qed.

Print Assumptions combinations_star_sound.
Print Assumptions combinations_star_complete.
Print Assumptions combinations_star_distinct.
Print Assumptions combinations_star_for_each_same.
Print Assumptions permutations_star_sound.
Print Assumptions permutations_star_complete.
Print Assumptions permutations_star_distinct.
