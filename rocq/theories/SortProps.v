(** C18: sorting. *)
From Coq Require Import List Bool ZArith Permutation Lia.
From Verif Require Import Outcome ListModel ListSpec SortModel SortSpec SortProofs SortProofs2 SortProofs3 SortProofs4 SortProofs5 SortProofs6.
Import ListNotations.
Ltac Zify.zify_post_hook ::= idtac.

(** Scm_SortArray (sort, sort! without a predicate; vectors) terminates without leaving the
    array, permutes it whatever the comparison answers, and orders it when [cmp x y < 0]
    is a strict weak order.  Missing: arrays of 2^30 elements and more, where the int
    doubling of shift_up can overflow (and, from 2^31 on, the length does not fit the int
    parameter). *)
Theorem sort_array_sorts_partial : forall {A} (cmp : A -> A -> Z) (a : list A), (Z.of_nat (length a) < 2 ^ 30)%Z ->
  exists a', sort_array cmp a = Ok a' /\ Permutation a a' /\
    (strict_weak_order (fun x y => cmp x y <? 0)%Z -> sorted_of (fun x y => cmp x y <? 0)%Z a a').
Proof.
  intros A cmp a Hn. destruct (sort_array_ok cmp a Hn) as (a' & E & P & O). exists a'. split; [exact E|]. split; [exact P|].
  intros W. split; [exact P|]. exact (O W).
Qed.
(** a Scheme procedure answering #t / a negative fixnum for "less" *)
Theorem sort_array_predicate_partial : forall {A} (fn : A -> A -> answer) (lt : A -> A -> bool) (a : list A),
  (Z.of_nat (length a) < 2 ^ 30)%Z -> strict_weak_order lt ->
  (forall x y, (lt x y = true <-> fn x y = ATrue \/ exists n, fn x y = AFix n /\ (n < 0)%Z)) ->
  exists a', sort_array (cmp_scm fn) a = Ok a' /\ sorted_of lt a a'.
Proof.
  intros A fn lt a Hn W Hfn.
  assert (EQ : forall x y, (cmp_scm fn x y <? 0)%Z = lt x y).
  { intros x y. specialize (Hfn x y). unfold cmp_scm. destruct (lt x y).
    - destruct (proj1 Hfn eq_refl) as [->|(n & -> & Hneg)]; [reflexivity|]. rewrite (proj2 (Z.ltb_lt n 0) Hneg). reflexivity.
    - destruct (fn x y) as [|n|] eqn:E.
      + discriminate (proj2 Hfn (or_introl eq_refl)).
      + destruct (Z.ltb_spec n 0) as [Hneg|]; [|reflexivity]. discriminate (proj2 Hfn (or_intror (ex_intro _ n (conj eq_refl Hneg)))).
      + reflexivity. }
  destruct (sort_array_ok (cmp_scm fn) a Hn) as (a' & E & P & O). exists a'. split; [exact E|]. split; [exact P|].
  assert (W' : strict_weak_order (lt_ (cmp_scm fn))).
  { destruct W as [H1 H2 H3]. unfold lt_. constructor; intros *; rewrite !EQ; eauto. }
  intros i j x y Hij Hx Hy. rewrite <- EQ. exact (O W' i j x y Hij Hx Hy).
Qed.
(** sort! and sort on a list without a predicate: the pairs stay the same and in the same
    order, only the cars are exchanged; respectively a fresh list is made *)
Theorem sort_list_sorts_partial : forall (cmp : val -> val -> Z) h v pairs xs, closed h -> seg h v pairs xs Nil -> (Z.of_nat (length xs) < 2 ^ 30)%Z ->
  exists ys, Permutation xs ys /\ (strict_weak_order (fun x y => cmp x y <? 0)%Z -> sorted_of (fun x y => cmp x y <? 0)%Z xs ys) /\
    (exists h', sort_list_int cmp h v true = Ok (h', v) /\ changed_only pairs h h' /\ seg h' v pairs ys Nil) /\
    (exists h' r pairs', sort_list_int cmp h v false = Ok (h', r) /\ preserved h h' /\ seg h' r pairs' ys Nil /\ Forall (fun a => length h <= a) pairs').
Proof.
  intros cmp h v A xs Cl Sg Hn. destruct (sort_list_int_ok cmp h v A xs Cl Sg Hn) as (ys & P & O & (h' & E & _ & Ch & S') & R).
  exists ys. split; [exact P|]. split; [intros W; split; [exact P|exact (O W)]|]. split; [exists h'; auto|exact R].
Qed.

(** merge: a stable interleaving *)
Theorem merge_merges : forall {A K} (less : K -> K -> bool) (key : A -> K) (a b : list A),
  let lt := fun x y => less (key x) (key y) in
  exists c, merge less key a b = Ok c /\ Permutation (a ++ b) c /\
    (strict_weak_order less -> ordered lt a -> ordered lt b -> stably_sorted_of lt (a ++ b) c).
Proof.
  intros A K less key a b lt. exists (pmerge lt a b). split; [exact (merge_ok less key a b)|]. split; [apply pmerge_perm|].
  intros W Oa Ob. apply (swo_key less key) in W. split; [split; [apply pmerge_perm|apply srt_ordered, pmerge_srt; auto; apply ordered_srt; auto]|].
  intro z. rewrite filter_app. apply pmerge_stable; auto; apply ordered_srt; auto.
Qed.
(** merge!: the same, reusing exactly the pairs of the two lists *)
Theorem mergex_merges : forall (less : val -> val -> bool) (key : val -> val) h va A xs vb B ys,
  let lt := fun x y => less (key x) (key y) in
  seg h va A xs Nil -> seg h vb B ys Nil -> NoDup (A ++ B) ->
  exists h' r C zs, mergex (pless less) key h va vb = Ok (h', r) /\ changed_only (A ++ B) h h' /\ seg h' r C zs Nil /\
    Permutation (A ++ B) C /\ Permutation (xs ++ ys) zs /\
    (strict_weak_order less -> ordered lt xs -> ordered lt ys -> stably_sorted_of lt (xs ++ ys) zs).
Proof.
  intros less key h va A xs vb B ys lt Sa Sb ND.
  destruct (seg_chain _ _ _ _ _ Sa) as (Ca & EA & EX). destruct (seg_chain _ _ _ _ _ Sb) as (Cb & EB & EY).
  destruct (mergex_ok (pless less) key lt (fun _ => True) (fun _ => True) (fun _ => True)) with (h := h) (va := va) (vb := vb) (cs := combine A xs) (ds := combine B ys)
    as (h' & v & E1 & _ & Ch & _ & C1); auto.
  - rewrite EA, EB. exact ND.
  - apply Forall_forall; auto.
  - apply Forall_forall; auto.
  - apply Forall_forall; auto.
  - rewrite EA, EB in Ch. exists h', v, (map fst (pmerge (ltc lt) (combine A xs) (combine B ys))), (map snd (pmerge (ltc lt) (combine A xs) (combine B ys))).
    split; [exact E1|]. split; [exact Ch|]. split; [exact C1|].
    split. { rewrite <- EA at 1. rewrite <- EB at 1. rewrite <- map_app. apply Permutation_map, pmerge_perm. }
    rewrite map_snd_pmerge, EX, EY. split; [apply pmerge_perm|].
    intros W Oa Ob. apply (swo_key less key) in W. split; [split; [apply pmerge_perm|apply srt_ordered, pmerge_srt; auto; apply ordered_srt; auto]|].
    intro z. rewrite filter_app. apply pmerge_stable; auto; apply ordered_srt; auto.
Qed.
(** stable-sort! (and sort! with arguments) on a list returns the list whose first pair is
    the first pair of the argument, made of the same pairs, and touches nothing else. *)
Theorem stable_sortx_sorts : forall (less : val -> val -> bool) (key : option (val -> val)) h v pairs xs,
  closed h -> seg h v pairs xs Nil -> (forall x, In x xs -> in_heap h (app_key key x)) ->
  exists h' pairs' ys, stable_sortx (pless less) key h v = Ok (h', v) /\ changed_only pairs h h' /\
    seg h' v pairs' ys Nil /\ Permutation pairs pairs' /\ Permutation xs ys /\
    (strict_weak_order less -> stably_sorted_of (fun x y => less (app_key key x) (app_key key y)) xs ys).
Proof.
  intros less key h v A xs Cl Sg Hk. destruct (stable_sortx_ok less key h v A xs Cl Sg Hk) as (h' & A' & ys & E & _ & R).
  exists h', A', ys. split; [exact E|]. exact R.
Qed.
(** stable-sort (and sort with arguments) on a list returns fresh pairs and changes nothing *)
Theorem stable_sort_sorts : forall (less : val -> val -> bool) (key : option (val -> val)) h v pairs xs,
  closed h -> seg h v pairs xs Nil -> (forall x, In x xs -> in_heap h (app_key key x)) ->
  exists h' r pairs' ys, stable_sort (pless less) key h v = Ok (h', r) /\ preserved h h' /\
    seg h' r pairs' ys Nil /\ Forall (fun a => length h <= a) pairs' /\ Permutation xs ys /\
    (strict_weak_order less -> stably_sorted_of (fun x y => less (app_key key x) (app_key key y)) xs ys).
Proof. exact stable_sort_ok. Qed.
(** stable-sort! on a vector *)
Theorem stable_sortx_vector_sorts : forall (less : val -> val -> bool) h vec, closed h -> Forall (in_heap h) vec ->
  exists h' vec', istable_sortx_vec (pless less) h vec = Ok (h', vec') /\ preserved h h' /\ Permutation vec vec' /\
    (strict_weak_order less -> stably_sorted_of less vec vec').
Proof. exact istable_sortx_vec_ok. Qed.
(** sorted? answers #t exactly for the ordered sequences *)
Theorem sorted_p_correct : forall {A K} (less : K -> K -> bool) (key : A -> K) (l : list A), strict_weak_order less ->
  (sorted_p less key l = true <-> ordered (fun x y => less (key x) (key y)) l).
Proof.
  intros A K less key l W. destruct l as [|a l].
  - split; auto. intros _ i j x y _ Hi. destruct i; discriminate.
  - unfold sorted_p. rewrite (sorted_loop_ok less key l a W). split; [apply srt_ordered|apply ordered_srt].
Qed.
(** a stable sort is unique *)
Theorem stable_sort_unique : forall {A} (lt : A -> A -> bool), strict_weak_order lt ->
  forall l l1 l2, stably_sorted_of lt l l1 -> stably_sorted_of lt l l2 -> l1 = l2.
Proof.
  intros A lt W l l1 l2 [[P1 O1] S1] [[P2 O2] S2].
  assert (S12 : forall z, filter (equiv lt z) l1 = filter (equiv lt z) l2) by (intro z; rewrite S1, S2; reflexivity).
  assert (P : Permutation l1 l2) by (rewrite <- P1; exact P2).
  apply ordered_srt in O1, O2. clear l P1 P2 S1 S2.
  revert l2 O2 S12 P. induction l1 as [|x l1 IH]; intros l2 O2 S12 P.
  - apply Permutation_nil in P. auto.
  - destruct l2 as [|y l2]; [symmetry in P; apply Permutation_nil in P; discriminate|].
    destruct O1 as [X1 X2], O2 as [Y1 Y2].
    assert (Eq : equiv lt x y = true /\ equiv lt x x = true).
    { unfold equiv. rewrite (swo_irrefl _ W). split; [|reflexivity].
      assert (Hx : In x (y :: l2)) by (eapply Permutation_in; [exact P|left; auto]).
      assert (Hy : In y (x :: l1)) by (eapply Permutation_in; [symmetry; exact P|left; auto]).
      assert (A1 : lt x y = false) by (destruct Hx as [->|Hx]; [apply W|apply Y1; auto]).
      assert (A2 : lt y x = false) by (destruct Hy as [->|Hy]; [apply W|apply X1; auto]).
      rewrite A1, A2. reflexivity. }
    destruct Eq as [Eq1 Eq2]. pose proof (S12 x) as Sx. cbn [filter] in Sx. rewrite Eq1, Eq2 in Sx. injection Sx as -> Sx.
    f_equal. apply IH; auto.
    + intro z. specialize (S12 z). cbn [filter] in S12. destruct (equiv lt z y); congruence.
    + eapply Permutation_cons_inv. exact P.
Qed.

(** ** Non-vacuity *)
Example num_order : strict_weak_order Z.ltb.
Proof.
  constructor; intros *.
  - apply Z.ltb_irrefl.
  - rewrite !Z.ltb_lt. lia.
  - rewrite !Z.ltb_ge. lia.
Qed.
Example sort_array_example : sort_array Z.sub [5; 3; 9; 1; 3; 8; 2]%Z = Ok [1; 2; 3; 3; 5; 8; 9]%Z.
Proof. vm_compute. reflexivity. Qed.
(** the quick sort degenerates on descending input of this size and heap sort takes over *)
Example sort_array_heap_example :
  sort_array Z.sub (map Z.of_nat (rev (seq 0 40))) = Ok (map Z.of_nat (seq 0 40)).
Proof. vm_compute. reflexivity. Qed.
(** an inconsistent comparison still gives a permutation *)
Example sort_array_bad_cmp : exists a', sort_array (fun _ _ : Z => (-1)%Z) [1; 2; 3; 4]%Z = Ok a' /\ Permutation [1; 2; 3; 4]%Z a'.
Proof.
  destruct (sort_array_sorts_partial (fun _ _ : Z => (-1)%Z) [1; 2; 3; 4]%Z) as (a' & E & P & _); [cbn; lia|]. eauto.
Qed.
Definition zval (v : val) : Z := match v with Atom n => n | _ => 0%Z end.
Definition vless (x y : val) : bool := (zval x <? zval y)%Z.
Definition ex_heap : heap := [(Atom 31, Ptr 1); (Atom 12, Ptr 2); (Atom 35, Ptr 3); (Atom 11, Ptr 4); (Atom 22, Nil)].
(** sorting by the tens: 12 11 22 31 35; the list starts at the same pair *)
Example stable_sortx_example : exists h', stable_sortx (pless vless) (Some (fun v => Atom (zval v / 10))) ex_heap (Ptr 0) = Ok (h', Ptr 0)
  /\ exists A, seg h' (Ptr 0) A [Atom 12; Atom 11; Atom 22; Atom 31; Atom 35] Nil.
Proof. eexists. split; [vm_compute; reflexivity|]. eexists. repeat (econstructor; [vm_compute; reflexivity|]). constructor. Qed.
Example stable_sortx_hyps : closed ex_heap /\ seg ex_heap (Ptr 0) [0; 1; 2; 3; 4] [Atom 31; Atom 12; Atom 35; Atom 11; Atom 22] Nil /\ strict_weak_order vless.
Proof.
  split; [unfold closed, ex_heap; repeat constructor; cbn; lia|]. split.
  - repeat (econstructor; [reflexivity|]). constructor.
  - exact (swo_key Z.ltb zval num_order).
Qed.

Print Assumptions sort_array_sorts_partial.
Print Assumptions sort_array_predicate_partial.
Print Assumptions sort_list_sorts_partial.
Print Assumptions merge_merges.
Print Assumptions mergex_merges.
Print Assumptions stable_sortx_sorts.
Print Assumptions stable_sort_sorts.
Print Assumptions stable_sortx_vector_sorts.
Print Assumptions sorted_p_correct.
Print Assumptions stable_sort_unique.
