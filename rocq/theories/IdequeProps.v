(** C28: persistent deques behave as sequences.
    [holds d l] (IdequeSpec): the deque [d] is balanced and its elements, front to back, are [l];
    [gives x l]: the operation succeeds with such a deque.  Deques are values: no operation
    changes an existing one. *)
From Coq Require Import List Bool Arith Lia.
From Verif Require Import Outcome IdequeModel IdequeSpec IdequeProofs.
Import ListNotations.

Theorem ideque_constructors : forall A,
  holds (@empty A) [] /\
  (forall n (x : A), holds (make_ideque n x) (repeat x n)) /\
  (forall n (g : nat -> A), holds (ideque_tabulate n g) (map g (seq 0 n))) /\
  (forall l : list A, gives (list_to_ideque l) l) /\
  (forall (ds : list (dq A)) ls, Forall2 holds ds ls -> gives (ideque_append ds) (concat ls)).
Proof.
  intros A. split; [apply empty_holds|]. split; [apply make_ok|]. split; [apply tabulate_ok|]. split; [apply list_to_ideque_ok|apply append_ok].
Qed.
Theorem ideque_ends : forall A (d : dq A) l, holds d l ->
  (forall x, gives (ideque_add_front d x) (x :: l)) /\
  (forall x, gives (ideque_add_back d x) (l ++ [x])) /\
  ideque_front d = match l with [] => Err | x :: _ => Ok x end /\
  ideque_back d = match rev l with [] => Err | x :: _ => Ok x end /\
  match l with [] => ideque_remove_front d = Err | _ :: s => gives (ideque_remove_front d) s end /\
  match rev l with [] => ideque_remove_back d = Err | _ :: s => gives (ideque_remove_back d) (rev s) end.
Proof.
  intros A d l H. split; [intros; apply add_front_ok; auto|]. split; [intros; apply add_back_ok; auto|]. split; [apply front_ok; auto|].
  split; [apply back_ok; auto|]. split; [apply remove_front_ok; auto|apply remove_back_ok; auto].
Qed.
Theorem ideque_observers : forall A (d : dq A) l, holds d l ->
  ideque_to_list d = l /\ ideque_length d = length l /\
  ideque_empty d = match l with [] => true | _ => false end /\
  (forall n, ideque_ref d n = match nth_error l n with Some x => Ok x | None => Err end) /\
  (forall p, ideque_count p d = length (filter p l)) /\
  (forall p, ideque_find p d = find p l) /\
  (forall p, ideque_find_right p d = find p (rev l)) /\
  (forall p, ideque_any p d = existsb p l) /\
  (forall p, ideque_every p d = forallb p l) /\
  (forall S (g : A -> S -> S) s, ideque_fold g s d = fold_left (fun s x => g x s) l s) /\
  (forall S (g : A -> S -> S) s, ideque_fold_right g s d = fold_right g s l) /\
  generate (S (length l)) d = Ok l.
Proof.
  intros A d l H. repeat apply conj; intros.
  - apply to_list_ok; auto.
  - apply length_ok; auto.
  - apply empty_ok; auto.
  - apply ref_ok; auto.
  - apply count_ok; auto.
  - apply find_ok; auto.
  - apply find_right_ok; auto.
  - apply any_ok; auto.
  - apply every_ok; auto.
  - apply fold_ok; auto.
  - apply fold_right_ok; auto.
  - apply generate_ok; auto.
Qed.
Theorem ideque_parts : forall A (d : dq A) l n, holds d l ->
  (n <= length l ->
     gives (ideque_take d n) (firstn n l) /\ gives (ideque_drop d n) (skipn n l) /\
     gives (ideque_take_right d n) (skipn (length l - n) l) /\ gives (ideque_drop_right d n) (firstn (length l - n) l)) /\
  (length l < n -> ideque_take d n = Err /\ ideque_drop d n = Err /\ ideque_take_right d n = Err /\ ideque_drop_right d n = Err).
Proof.
  intros A d l n H. pose proof (length_ok _ _ H) as L. unfold ideque_take, ideque_drop, ideque_take_right, ideque_drop_right. rewrite L.
  split; intros N.
  - rewrite (proj2 (Nat.leb_le _ _) N). repeat apply conj.
    + apply take_ok; auto.
    + apply drop_ok; auto.
    + apply drop_ok; auto; lia.
    + apply take_ok; auto; lia.
  - rewrite (proj2 (Nat.leb_gt _ _) N). auto.
Qed.
Theorem ideque_transforms : forall A (d : dq A) l, holds d l ->
  holds (ideque_reverse d) (rev l) /\
  (forall B (g : A -> B), holds (ideque_map g d) (map g l)) /\
  (forall B (g : A -> option B), gives (ideque_filter_map g d) (filter_map g l)) /\
  (forall p, gives (ideque_filter p d) (filter p l)) /\
  (forall p, gives (ideque_remove p d) (filter (fun x => negb (p x)) l)) /\
  (forall p, exists a b, ideque_partition p d = Ok (a, b) /\ holds a (filter p l) /\ holds b (filter (fun x => negb (p x)) l)) /\
  (forall p, gives (ideque_take_while p d) (takewhile p l)) /\
  (forall p, gives (ideque_drop_while p d) (dropwhile p l)) /\
  (forall p, gives (ideque_take_while_right p d) (rev (takewhile p (rev l)))) /\
  (forall p, gives (ideque_drop_while_right p d) (rev (dropwhile p (rev l)))) /\
  (forall p, exists a b, ideque_span p d = Ok (a, b) /\ holds a (takewhile p l) /\ holds b (dropwhile p l)) /\
  (forall p, exists a b, ideque_break p d = Ok (a, b) /\ holds a (takewhile (fun x => negb (p x)) l) /\ holds b (dropwhile (fun x => negb (p x)) l)).
Proof.
  intros A d l H.
  split; [apply reverse_ok; auto|].
  split; [intros; apply map_ok; auto|].
  split; [intros; apply filter_map_ok; auto|].
  split; [intros; apply filter_ok; auto|].
  split; [intros; apply filter_ok; auto|].
  split; [intros; apply partition_ok; auto|].
  split; [intros; apply take_while_ok; auto|].
  split; [intros; apply drop_while_ok; auto|].
  split; [intros; apply take_while_right_ok; auto|].
  split; [intros; apply drop_while_right_ok; auto|].
  split; [intros; apply span_gives; auto|].
  intros; apply span_gives; auto.
Qed.
(** two-deque ideque=, for a symmetric element equality *)
Theorem ideque_equality_partial : forall A (eq : A -> A -> bool) d1 d2 l1 l2, (forall x y, eq x y = eq y x) ->
  holds d1 l1 -> holds d2 l2 -> (ideque_eq false eq d1 d2 = true <-> Forall2 (fun x y => eq x y = true) l1 l2).
Proof.
  intros A eq d1 d2 l1 l2 S H1 H2. rewrite (ideque_eq_ok eq d1 d2 l1 l2 S H1 H2). clear. revert l2.
  induction l1 as [|x l1 IH]; intros [|y l2]; cbn; split; intros H; try discriminate; auto; try (inversion H; fail).
  - apply andb_true_iff in H. destruct H. constructor; auto. apply IH; auto.
  - inversion H; subst. apply andb_true_iff. split; auto. apply IH; auto.
Qed.
(** with an element equality that is not symmetric, some elements are passed in the wrong order *)
Theorem ideque_equality_order_refuted : exists (eq : nat -> nat -> bool) d1 d2 l1 l2,
  holds d1 l1 /\ holds d2 l2 /\ Forall2 (fun x y => eq x y = true) l1 l2 /\ ideque_eq false eq d1 d2 = false.
Proof.
  exists Nat.leb, (mk_dq 1 [1] 2 [3; 2]), (mk_dq 2 [1; 5] 1 [3]), [1; 2; 3], [1; 5; 3].
  repeat split; try (cbn; lia). repeat constructor.
Qed.

(** the hypotheses are met: a deque of seven elements after mixed operations *)
Example ideque_example : gives (do d <- list_to_ideque [1;2;3;4]; do d <- ideque_add_back d 5; do d <- ideque_remove_front d; ideque_add_front d 9) [9;2;3;4;5].
Proof. eexists. split; [vm_compute; reflexivity|]. repeat split; cbn; lia. Qed.

Print Assumptions ideque_constructors.
Print Assumptions ideque_ends.
Print Assumptions ideque_observers.
Print Assumptions ideque_parts.
Print Assumptions ideque_transforms.
Print Assumptions ideque_equality_partial.
Print Assumptions ideque_equality_order_refuted.
