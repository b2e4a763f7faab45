(** Power sets and cartesian products: the theorems. *)
From Coq Require Import List Bool Arith Lia Permutation Sorted.
From Verif Require Import CbModel CbSpec CbProofs Cb2Model Cb2Proofs.
Import ListNotations.

(** power-set: just the selections from the set, 2^n in number, each once, the smaller ones first *)
Theorem power_set_all : forall A (set c : list A), In c (power_set set) <-> subl c set.
Proof. intros. apply power_in. Qed.
Theorem power_set_nodup : forall A (set : list A), NoDup set -> NoDup (power_set set).
Proof. intros. now apply power_nodup. Qed.
Theorem power_set_count : forall A (set : list A), length (power_set set) = 2 ^ length set.
Proof. intros. apply power_len. Qed.
Theorem power_set_ordered : forall A (set : list A), StronglySorted (fun a b => length a <= length b) (power_set set).
Proof. intros. apply power_sizes. Qed.
(** power-set-binary: the same in another order *)
Theorem power_set_binary_same : forall A (set : list A), NoDup set -> Permutation (power_set set) (power_set_binary set).
Proof. intros. now apply power_perm. Qed.
Theorem power_set_binary_all : forall A (set c : list A), In c (power_set_binary set) <-> subl c set.
Proof. intros. apply binary_in. Qed.
Theorem power_set_binary_count : forall A (set : list A), length (power_set_binary set) = 2 ^ length set.
Proof. intros. apply binary_len. Qed.
Theorem power_set_for_each_same : forall A S (proc : list A -> S -> S) set s,
  power_set_for_each proc set s = fold_left (fun s c => proc c s) (power_set set) s.
Proof. intros. apply pfl_spec. Qed.

(** cartesian-product: just the lists with an element of each list in its place, as many as the product of the lengths,
    each once, in lexicographic order *)
Theorem cartesian_product_all : forall A lol (t : list A), In t (cartesian_product lol) <-> Forall2 (fun x l => In x l) t lol.
Proof. intros. apply cp_in. Qed.
Theorem cartesian_product_count : forall A (lol : list (list A)), length (cartesian_product lol) = fold_right Nat.mul 1 (map (@length A) lol).
Proof. intros. apply cp_len. Qed.
Theorem cartesian_product_nodup : forall A (lol : list (list A)), Forall (@NoDup A) lol -> NoDup (cartesian_product lol).
Proof. intros. now apply cp_nodup. Qed.
Theorem cartesian_product_lexicographic : forall A (R : A -> A -> Prop) lol, Forall (StronglySorted R) lol -> StronglySorted (lex R) (cartesian_product lol).
Proof. intros. now apply cp_lex. Qed.
Theorem cartesian_product_for_each_same : forall A S (proc : list A -> S -> S) lol s,
  cartesian_product_for_each proc lol s = fold_left (fun s t => proc t s) (cartesian_product lol) s.
Proof. intros. apply cpfe_spec. Qed.
(** cartesian-product-right: the same lists, the leftmost element varying first, as the comment in the source says *)
Theorem cartesian_product_right_all : forall A lol (t : list A), In t (cartesian_product_right lol) <-> Forall2 (fun x l => In x l) t lol.
Proof. intros. apply cpr_in. Qed.
Theorem cartesian_product_right_reverse : forall A (lol : list (list A)), cartesian_product_right lol = map (@rev A) (cartesian_product (rev lol)).
Proof. intros. apply cpr_rev. Qed.
Theorem cartesian_product_right_for_each_same : forall A S (proc : list A -> S -> S) lol s,
  cartesian_product_right_for_each proc lol s = fold_left (fun s t => proc t s) (cartesian_product_right lol) s.
Proof. intros. apply cprfe_spec. Qed.

(** Examples *)
Example ex_power : power_set [1;2;3] = [[];[1];[2];[3];[1;2];[1;3];[2;3];[1;2;3]]. Proof. reflexivity. Qed.
Example ex_binary : power_set_binary [1;2] = [[];[2];[1];[1;2]]. Proof. reflexivity. Qed.
Example ex_pfe : power_set_for_each (fun c s => s ++ [c]) [1;2] [] = [[];[1];[2];[1;2]]. Proof. reflexivity. Qed.
Example ex_cp : cartesian_product [[1;2];[3;4;5]] = [[1;3];[1;4];[1;5];[2;3];[2;4];[2;5]]. Proof. reflexivity. Qed.
Example ex_cpr : cartesian_product_right [[1;2];[3;4;5]] = [[1;3];[2;3];[1;4];[2;4];[1;5];[2;5]]. Proof. reflexivity. Qed.
Example ex_sorted2 : Forall (StronglySorted lt) [[1;2];[3;4;5]] /\ Forall (@NoDup nat) [[1;2];[3;4;5]].
Proof. split; repeat constructor; cbn; lia. Qed.

Print Assumptions power_set_all.
Print Assumptions power_set_nodup.
Print Assumptions power_set_count.
Print Assumptions power_set_ordered.
Print Assumptions power_set_binary_same.
Print Assumptions power_set_binary_all.
Print Assumptions power_set_binary_count.
Print Assumptions power_set_for_each_same.
Print Assumptions cartesian_product_all.
Print Assumptions cartesian_product_count.
Print Assumptions cartesian_product_nodup.
Print Assumptions cartesian_product_lexicographic.
Print Assumptions cartesian_product_for_each_same.
Print Assumptions cartesian_product_right_all.
Print Assumptions cartesian_product_right_reverse.
Print Assumptions cartesian_product_right_for_each_same.
