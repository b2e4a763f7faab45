(** C12: char-sets are sets of characters. *)
From Coq Require Import ZArith List Bool Arith Lia Sorting.Sorted.
From Verif Require Import Outcome CharsetModel CharsetSpec CharsetProofs5.
Import ListNotations.
Local Open Scope Z_scope.

(** Whatever sequence of operations a program performs, starting without char-sets, every
    answer is the one the sets of characters dictate: membership, equality, inclusion,
    the list of ranges, errors.  No operation aborts or accesses memory out of bounds. *)
Theorem charset_history : forall ops, exists st answers, csrun [] ops = Ok (st, answers) /\ spec_run [] ops answers.
Proof. intros ops. apply run_ok. constructor. Qed.

(** the specification leaves no choice but the way a set is cut into ranges *)
Theorem spec_step_answer : forall st o s1 s2 a1 a2, spec_step st o s1 a1 -> spec_step st o s2 a2 ->
  s1 = s2 /\ (a1 = a2 \/ exists i, o = Ranges i).
Proof.
  intros st o s1 s2 a1 a2 H1 H2.
  assert (B : forall b c : bool, (b = true <-> c = true) -> b = c) by (intros [|] [|] H; auto; [symmetry; apply H; auto|apply H; auto]).
  inversion H1; subst; clear H1; inversion H2; subst; clear H2; repeat match goal with
    | H : nth_error ?x ?i = Some ?a, H' : nth_error ?x ?i = Some ?b |- _ => rewrite H in H'; inversion H'; subst; clear H' end;
    try (split; [reflexivity|left; reflexivity]);
    try (split; [reflexivity|left; f_equal; apply B; etransitivity; [eassumption|symmetry; eassumption]]);
    try (split; [reflexivity|right; eexists; reflexivity]);
    try (exfalso; tauto); try congruence;
    exfalso; repeat match goal with H : _ \/ _ |- _ => destruct H; subst end; subst; try contradiction; congruence.
Qed.

(** a program: #[a-z] plus two ranges that meet, its complement and back, frozen copy *)
Example charset_ex : exists st, csrun [] [New; AddRange 0 97 122; AddRange 0 200 300; AddRange 0 301 400; AddRange 0 150 160; Ranges 0;
    Freeze 0; Complement 0; Contains 0 200; Contains 1 400; Subset 0 1; Complement 0; Equal 0 1; AddRange 1 5 6; Copy 1; AddRange 2 0 100000; Ranges 2; Subset 1 2]
  = Ok (st, [AUnit; AUnit; AUnit; AUnit; AUnit; ARanges [(97, 122); (150, 160); (200, 400)];
    AUnit; AUnit; ABool false; ABool true; ABool false; AUnit; ABool true; AErr; AUnit; AUnit; ARanges [(0, 127); (128, 100000)]; ABool true]).
Proof. eexists. vm_compute. reflexivity. Qed.

Print Assumptions charset_history.
Print Assumptions spec_step_answer.
