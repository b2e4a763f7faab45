(** Properties C03, C04, C05: tree-maps. *)
From Coq Require Import List Bool ZArith Lia Sorting.Sorted.
From Verif Require Import Outcome TreeModel TreeSpec TreeApi TreeProofs TreeProofs2 TreeProofs3 TreeProofs4.
Import ListNotations.
Local Open Scope nat_scope.

(** The contents of a tree as an association list, ascending. *)
Definition contents {K V} (tc : core K V) : alist K V := abs tc.

(** C03/C04/C05: whatever sequence of tree-map operations a program performs on a
    new tree-map, no error, assertion failure or undefined behaviour occurs and
    every answer (values, popped entries, neighbours, counts, traversals, result of
    the consistency check) is that of the ordered association list. *)
Theorem treemap_refines_ordered_map : forall K V (cmp : K -> K -> Z), ordering cmp ->
  forall ops : list (op K V), (Z.of_nat (length ops) < 2147483647)%Z ->
  exists tc, tree_run cmp ops core_init = Ok (tc, snd (spec_run cmp ops [])) /\
             contents tc = fst (spec_run cmp ops []).
Proof.
  intros K V cmp O ops H. destruct (run_ok cmp O ops core_init (good_init cmp)) as (tc & E & _ & A); [exact H|].
  exists tc. auto.
Qed.

(** C03: the specification list really is a finite map: after storing, a lookup of
    any key gives the new value iff the keys are the same; after removing, nothing
    iff they are the same. *)
Theorem spec_map_laws : forall K V (cmp : K -> K -> Z), ordering cmp ->
  forall (m : alist K V) k v k', sorted_map cmp m ->
  lookup cmp k' (put cmp k v m) = (if (cmp k k' =? 0)%Z then Some v else lookup cmp k' m) /\
  lookup cmp k' (remove cmp k m) = (if (cmp k k' =? 0)%Z then None else lookup cmp k' m) /\
  sorted_map cmp (put cmp k v m) /\ sorted_map cmp (remove cmp k m).
Proof.
  intros K V cmp O m k v k' S. repeat split.
  - now apply lookup_put.
  - now apply lookup_remove.
  - now apply put_sorted.
  - now apply remove_sorted.
Qed.

(** C03: contents of a reachable tree-map are always strictly ordered. *)
Theorem treemap_contents_sorted : forall K V (cmp : K -> K -> Z), ordering cmp ->
  forall (ops : list (op K V)) tc l, (Z.of_nat (length ops) < 2147483647)%Z ->
  tree_run cmp ops core_init = Ok (tc, l) -> sorted_map cmp (contents tc).
Proof.
  intros K V cmp O ops tc l H E. destruct (run_ok cmp O ops core_init (good_init cmp)) as (tc' & E' & [I F] & A); [exact H|].
  rewrite E in E'. injection E' as -> ->. unfold contents, abs, sorted_map.
  pose proof (inv_sorted _ _ I) as S. clear - S F. induction (elements (root tc')) as [|[[i k] [v|]] a IH]; cbn; [constructor| |].
  - inversion S; inversion F; subst. constructor; [now apply IH|].
    clear - H2. induction a as [|[[i' k'] [v'|]] a IH]; cbn; inversion H2; subst; auto.
  - inversion F; subst. cbn in *. congruence.
Qed.

(** C03: a copy has its own nodes: no node is shared with the original. *)
Theorem treemap_copy_disjoint : forall K V (cmp : K -> K -> Z), ordering cmp ->
  forall (ops : list (op K V)) tc l, (Z.of_nat (length ops) < 2147483647)%Z ->
  tree_run cmp ops core_init = Ok (tc, l) ->
  contents (core_copy tc) = contents tc /\
  forall e, In e (elements (root (core_copy tc))) -> ~ In (entry_id e) (map entry_id (elements (root tc))).
Proof.
  intros K V cmp O ops tc l H E. destruct (run_ok cmp O ops core_init (good_init cmp)) as (tc' & E' & G & A); [exact H|].
  rewrite E in E'. injection E' as -> ->. destruct (core_copy_good cmp tc' G) as (_ & B & _ & C). auto.
Qed.

(** C03: Scm_TreeCoreEq decides equality of contents (words compared as words). *)
Theorem treecore_eq_decides : forall K V (cmp : K -> K -> Z) (keqb : K -> K -> bool) (veqb : option V -> option V -> bool),
  ordering cmp -> (forall x y, keqb x y = true <-> x = y) -> (forall x y, veqb x y = true <-> x = y) ->
  forall ops1 ops2 tc1 tc2 l1 l2,
  (Z.of_nat (length ops1) < 2147483647)%Z -> (Z.of_nat (length ops2) < 2147483647)%Z ->
  tree_run cmp ops1 core_init = Ok (tc1, l1) -> tree_run cmp ops2 core_init = Ok (tc2, l2) ->
  exists r, core_eq keqb veqb (S (length (elements (root tc1)))) tc1 tc2 = Some r /\
            (r = true <-> contents tc1 = contents tc2).
Proof.
  intros K V cmp keqb veqb O Hk Hv ops1 ops2 tc1 tc2 l1 l2 H1 H2 E1 E2.
  destruct (run_ok cmp O ops1 core_init (good_init cmp)) as (tc1' & E1' & [I1 F1] & A1); [exact H1|].
  destruct (run_ok cmp O ops2 core_init (good_init cmp)) as (tc2' & E2' & [I2 F2] & A2); [exact H2|].
  rewrite E1 in E1'. injection E1' as <- ->. rewrite E2 in E2'. injection E2' as <- ->.
  destruct (core_eq_ok cmp keqb veqb tc1 tc2 (S (length (elements (root tc1)))) Hk Hv I1 I2) as (r & R1 & R2); [lia|].
  exists r. split; auto. rewrite R2. unfold contents, abs. split; [apply kvs_vals|].
  clear - F1 F2. revert F1 F2. generalize (elements (root tc1)) (elements (root tc2)).
  induction l as [|[[i k] [v|]] a IH]; intros [|[[i' k'] [v'|]] b] F1 F2 X;
    try (inversion F1; subst; cbn in *; congruence); try (inversion F2; subst; cbn in *; congruence).
  cbn in X. injection X as -> -> X. inversion F1; inversion F2; subst. cbn. f_equal. now apply IH.
Qed.

(** C04: the consistency check of src/treemap.c never fails on a reachable tree, and
    a search makes at most 2*log2(n+1) key comparisons. *)
Theorem treemap_balanced : forall K V (cmp : K -> K -> Z), ordering cmp ->
  forall (ops : list (op K V)) tc l, (Z.of_nat (length ops) < 2147483647)%Z ->
  tree_run cmp ops core_init = Ok (tc, l) ->
  check_consistency tc = true /\
  forall key, comparisons cmp tc key <= 2 * Nat.log2 (length (contents tc) + 1).
Proof.
  intros K V cmp O ops tc l H E. destruct (run_ok cmp O ops core_init (good_init cmp)) as (tc' & E' & [I F] & A); [exact H|].
  rewrite E in E'. injection E' as -> ->. split; [eapply check_ok; eauto|].
  intro key. unfold contents, abs. rewrite vals_length by auto. rewrite Nat.add_1_r. now apply comparisons_bound.
Qed.
(** the tree depth itself *)
Theorem treemap_depth : forall K V (cmp : K -> K -> Z), ordering cmp ->
  forall (ops : list (op K V)) tc l, (Z.of_nat (length ops) < 2147483647)%Z ->
  tree_run cmp ops core_init = Ok (tc, l) -> height (root tc) <= 2 * Nat.log2 (length (contents tc) + 1).
Proof.
  intros K V cmp O ops tc l H E. destruct (run_ok cmp O ops core_init (good_init cmp)) as (tc' & E' & [I F] & A); [exact H|].
  rewrite E in E'. injection E' as -> ->.
  unfold contents, abs. rewrite vals_length by auto. rewrite Nat.add_1_r. apply rb_depth, I.
Qed.

(** C05: a full pass during which the program deletes the current entry whenever it
    likes visits every entry once, in order, and removes exactly those. *)
Theorem treemap_sweep_with_delete : forall K V (cmp : K -> K -> Z), ordering cmp ->
  forall (ops : list (op K V)) tc l kill, (Z.of_nat (length ops) < 2147483647)%Z ->
  tree_run cmp ops core_init = Ok (tc, l) ->
  exists tc' seen it, iter_init cmp tc None = Ok it /\
    sweep cmp (S (length (contents tc))) kill tc it = Ok (tc', seen) /\
    pair_list seen = Ok (contents tc) /\
    contents tc' = filter (fun e => negb (kill (fst e))) (contents tc) /\
    check_consistency tc' = true.
Proof.
  intros K V cmp O ops tc l kill H E. destruct (run_ok cmp O ops core_init (good_init cmp)) as (tc' & E' & [I F] & A); [exact H|].
  rewrite E in E'. injection E' as -> ->.
  set (it := mkiter None (bound_id tc' true) (bound_id tc' false)).
  destruct (sweep_ok cmp O kill (elements (root tc')) [] tc' it (S (length (contents tc')))) as (tc2 & S1 & S2 & S3); auto.
  { apply bound_id_ok. } { unfold contents, abs. rewrite vals_length; auto. }
  exists tc2, (elements (root tc')), it. split; [reflexivity|]. split; auto.
  split; [now apply pair_list_vals|]. split; [|eapply check_ok; eauto].
  unfold contents, abs. rewrite S3. cbn [app]. clear - F. revert F. generalize (elements (root tc')) as es.
  induction es as [|[[i k] [v|]] a IH]; intro F; cbn; auto; inversion F; subst; [|cbn in *; congruence].
  destruct (kill k); cbn; rewrite IH; auto.
Qed.

(** C05: moving an iterator back and forth follows the ordered sequence - unless
    the tree-map has exactly one entry (see the refutation below). *)
Theorem treemap_iterator_is_cursor_partial : forall K V (cmp : K -> K -> Z), ordering cmp ->
  forall (ops : list (op K V)) tc l moves, (Z.of_nat (length ops) < 2147483647)%Z ->
  tree_run cmp ops core_init = Ok (tc, l) -> length (contents tc) <> 1 ->
  exists it, iter_init cmp tc None = Ok it /\
    iter_run tc moves it = cursor_run (elements (root tc)) moves CFresh.
Proof.
  intros K V cmp O ops tc l moves H E L. destruct (run_ok cmp O ops core_init (good_init cmp)) as (tc' & E' & [I F] & A); [exact H|].
  rewrite E in E'. injection E' as -> ->.
  eexists. split; [reflexivity|]. apply iter_run_ok; [apply I| |].
  - unfold contents, abs in L. now rewrite vals_length in L.
  - cbn. destruct (bound_id_ok tc'). auto.
Qed.
(** With one entry, stepping past the end and back loses the entry, because
    node_cleared_p takes the lone root for a deleted node. *)
Theorem treemap_iterator_single_refuted : exists tc l it,
  tree_run Z.sub [OPut 1%Z 10%Z] core_init = Ok (tc, l) /\
  iter_init Z.sub tc None = Ok it /\
  iter_run tc [true; true; false] it <> cursor_run (elements (root tc)) [true; true; false] CFresh.
Proof. eexists _, _, _. split; [vm_compute; reflexivity|]. split; [vm_compute; reflexivity|]. vm_compute. discriminate. Qed.

(** Non-vacuity: integer keys are ordered by subtraction, and a history with
    insertions in both directions, two-child deletions and pops behaves. *)
Lemma Zsub_ordering : ordering Z.sub.
Proof. constructor; intros; lia. Qed.
Example treemap_run_example :
  let ops := map (fun k => OPut k (10 * k)%Z) [5;1;9;3;7;2;8;4;6;0]%Z
             ++ [ODelete 5; ODelete 3; OPopMin; OPopMax; ONear 5; OEntriesDown; OCount; OCheck]%Z in
  match tree_run Z.sub ops core_init with
  | Ok (tc, l) => contents tc = [(1,10);(2,20);(4,40);(6,60);(7,70);(8,80)]%Z /\
      skipn 14 l = [ANear None (Some (4,40)) (Some (6,60));
                    AList [(8,80);(7,70);(6,60);(4,40);(2,20);(1,10)]; ANum 6; ABool true]%Z
  | _ => False
  end.
Proof. vm_compute. auto. Qed.
Example sweep_example :
  match tree_run Z.sub (map (fun k => OPut k k) [4;2;6;1;3;5;7]%Z) core_init with
  | Ok (tc, _) => match iter_init Z.sub tc None with
      | Ok it => match sweep Z.sub 8 Z.even tc it with Ok (tc', seen) => contents tc' = [(1,1);(3,3);(5,5);(7,7)]%Z /\ length seen = 7 | _ => False end
      | _ => False end
  | _ => False end.
Proof. vm_compute. auto. Qed.

Print Assumptions treemap_refines_ordered_map.
Print Assumptions spec_map_laws.
Print Assumptions treemap_contents_sorted.
Print Assumptions treemap_copy_disjoint.
Print Assumptions treecore_eq_decides.
Print Assumptions treemap_balanced.
Print Assumptions treemap_depth.
Print Assumptions treemap_sweep_with_delete.
Print Assumptions treemap_iterator_is_cursor_partial.
Print Assumptions treemap_iterator_single_refuted.
