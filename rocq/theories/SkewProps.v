(** C29: skew lists behave as lists.
    [holds sl l] (SkewSpec): [sl] is a skew list in canonical form whose elements are [l].
    Every skew list built with cons, cdr, set, map, take, drop, split-at and list->skew-list is
    canonical; skew-list-append may return a list that is not (see the refutations below). *)
From Coq Require Import List Bool ZArith Lia.
From Verif Require Import Outcome SkewModel SkewSpec SkewProofs SkewProofs2 SkewProofs3.
Import ListNotations.
Local Open Scope Z_scope.
Ltac Zify.zify_post_hook ::= idtac.

(** list->skew-list and skew-list->list are inverse to each other *)
Theorem skew_of_list : forall A (l : list A), exists sl, list_to_skew l = Ok sl /\ holds sl l.
Proof. intros. apply list_to_skew_ok. Qed.
Theorem skew_to_list_correct : forall A (sl : skew A) l, holds sl l -> skew_to_list sl = l.
Proof. intros A sl l [_ <-]. apply skew_to_list_ok. Qed.
(** equal? on skew lists (which compares representations) is equality of the sequences *)
Theorem skew_equal_iff_same_elements : forall A (sl sl' : skew A) l l', holds sl l -> holds sl' l' -> (sl = sl' <-> l = l').
Proof.
  intros A sl sl' l l' H H'. split; intros E; subst.
  - destruct H as [_ <-], H' as [_ <-]. reflexivity.
  - exact (holds_unique _ _ _ H H').
Qed.
(** empty?, cons, car, cdr *)
Theorem skew_empty_correct : forall A (sl : skew A) l, holds sl l -> (sl = [] <-> l = []).
Proof. intros A sl l [_ <-]. split; [intros ->; reflexivity|apply skew_nil_inv]. Qed.
Theorem skew_cons_correct : forall A (x : A) sl l, holds sl l -> holds (skew_cons x sl) (x :: l).
Proof. intros A. exact skew_cons_holds. Qed.
Theorem skew_car_correct : forall A (sl : skew A) l, holds sl l ->
  skew_car sl = match l with [] => Err | x :: _ => Ok x end.
Proof.
  intros A sl [|x l] H; [rewrite (skew_nil_inv sl (proj2 H)); reflexivity|]. exact (skew_car_ok _ _ _ (proj2 H)).
Qed.
Theorem skew_cdr_correct : forall A (sl : skew A) l, holds sl l ->
  match l with [] => skew_cdr sl = Err | _ :: r => exists sl', skew_cdr sl = Ok sl' /\ holds sl' r end.
Proof.
  intros A sl [|x l] H; [rewrite (skew_nil_inv sl (proj2 H)); reflexivity|]. exact (skew_cdr_ok _ _ _ H).
Qed.
(** ref: any integer index; out of range is the fallback, or an error without one *)
Theorem skew_ref_correct : forall A (sl : skew A) l n fallback, holds sl l ->
  skew_list_ref sl n fallback =
    match at_index l n, fallback with Some x, _ => Ok x | None, Some f => Ok f | None, None => Err end.
Proof.
  intros A sl l n fb [[W _] <-]. unfold skew_list_ref. rewrite skew_ref_ok by exact W. cbn [bind]. destruct (at_index _ n), fb; reflexivity.
Qed.
Theorem skew_set_correct : forall A (sl : skew A) l n v, holds sl l ->
  (0 <= n < Z.of_nat (length l) -> exists sl', skew_set v sl n = Ok sl' /\ holds sl' (replaced l (Z.to_nat n) v)) /\
  (n < 0 \/ Z.of_nat (length l) <= n -> skew_set v sl n = Err).
Proof.
  intros A sl l n v [[W I] <-]. split; intros L.
  - destruct (skew_set_ok v sl W n L) as (sl' & -> & W' & M & Q). exists sl'. split; [reflexivity|]. split; [split; [exact W'|]|exact Q].
    rewrite M. exact I.
  - apply skew_set_err; auto.
Qed.
(** fold, length, length<=?, map *)
Theorem skew_fold_correct : forall A B (f : A -> B -> B) (sl : skew A) l seed, holds sl l ->
  skew_fold sl f seed = fold_left (fun s x => f x s) l seed.
Proof. intros A B f sl l seed [_ <-]. apply skew_fold_ok. Qed.
Theorem skew_length_correct : forall A (sl : skew A) l, holds sl l ->
  skew_length sl = Z.of_nat (length l) /\ forall k, skew_length_le sl k = (Z.of_nat (length l) <=? k).
Proof.
  intros A sl l [[W _] <-]. split; [apply skew_length_ok; exact W|]. intros k. unfold skew_length_le. rewrite length_le_loop_ok by exact W. reflexivity.
Qed.
Theorem skew_map_correct : forall A B (f : A -> B) (sl : skew A) l, holds sl l -> holds (skew_map sl f) (map f l).
Proof. intros. apply skew_map_holds. assumption. Qed.
(** skew-list->lseq / generator / iterator over a range *)
Theorem skew_range_correct : forall A (sl : skew A) l s e, holds sl l -> (s <= e <= length l)%nat ->
  (s < length l \/ s = 0)%nat -> skew_to_lseq sl (Z.of_nat s) (Some (Z.of_nat e)) = Ok (sublist l s e).
Proof. intros A sl l s e [[W _] <-] L S. apply skew_to_lseq_ok; auto. Qed.
Theorem skew_iterator_correct : forall A (sl : skew A) l, holds sl l -> skew_to_lseq sl 0 None = Ok l.
Proof.
  intros A sl l [[W _] <-]. rewrite skew_to_lseq_default by exact W. pose proof (skew_to_lseq_ok sl 0 (length (contents sl)) W ltac:(lia) ltac:(lia)) as E.
  cbn [Z.of_nat] in E. rewrite E. unfold sublist. cbn [skipn]. rewrite Nat.sub_0_r, firstn_all. reflexivity.
Qed.
(** take, drop, split-at: correct exactly when the representation does not start with two
    one-element trees or [k] falls between two trees *)
Theorem skew_split_partial : forall A (sl : skew A) l k, holds sl l -> (k <= length l)%nat ->
  on_boundary sl k \/ ~ starts_1_1 sl ->
  (exists t, skew_take sl (Z.of_nat k) = Ok t /\ holds t (firstn k l)) /\
  (exists d, skew_drop sl (Z.of_nat k) = Ok d /\ holds d (skipn k l)) /\
  (exists t d, skew_split_at sl (Z.of_nat k) = Ok (t, d) /\ holds t (firstn k l) /\ holds d (skipn k l)).
Proof.
  intros A sl l k [C <-] L D. split; [|split].
  - destruct (splitter_ok sl k Take C L D) as (r & E & Q1 & _). unfold skew_take. rewrite E. cbn [bind]. eexists. split; [reflexivity|]. apply Q1. congruence.
  - destruct (splitter_ok sl k Drop C L D) as (r & E & _ & Q2). unfold skew_drop. rewrite E. cbn [bind]. eexists. split; [reflexivity|]. apply Q2. congruence.
  - destruct (splitter_ok sl k Split C L D) as ([a b] & E & Q1 & Q2). unfold skew_split_at. rewrite E. exists a, b. split; [reflexivity|].
    split; [apply Q1|apply Q2]; congruence.
Qed.
Theorem skew_split_out_of_range : forall A (sl : skew A) l k, holds sl l -> k < 0 \/ Z.of_nat (length l) < k ->
  skew_take sl k = Err /\ skew_drop sl k = Err /\ skew_split_at sl k = Err.
Proof.
  intros A sl l k [[W _] <-] K. unfold skew_take, skew_drop, skew_split_at. rewrite !splitter_out by auto. auto.
Qed.
(** otherwise they raise an error although [k] is in range *)
Theorem skew_split_refuted : forall A (sl : skew A) l k, holds sl l -> (k <= length l)%nat ->
  starts_1_1 sl -> ~ on_boundary sl k ->
  skew_take sl (Z.of_nat k) = Err /\ skew_drop sl (Z.of_nat k) = Err /\ skew_split_at sl (Z.of_nat k) = Err.
Proof.
  intros A sl l k [[W _] <-] K S N. unfold skew_take, skew_drop, skew_split_at. rewrite !splitter_bad by auto. auto.
Qed.
(** append: whatever it returns holds the concatenation, and it returns unless some list of two or
    more elements is followed by empty lists only *)
Theorem skew_append_partial : forall A (sl : skew A) sls, wf sl -> Forall wf sls ->
  (exists s, skew_append sl sls = Ok s /\ wf s /\ contents s = concat (map contents (sl :: sls))) \/
  (skew_append sl sls = Err /\ exists a b c, sl :: sls = a ++ b :: c /\ (2 <= length (contents b))%nat /\ c <> [] /\ Forall (fun s => s = []) c).
Proof. intros. apply skew_append_spec; auto. Qed.
Theorem skew_append_empty_refuted : forall A (sl : skew A) l, holds sl l -> (2 <= length l)%nat -> skew_append sl [[]] = Err.
Proof.
  intros A sl l [[W _] <-] L. cbn [skew_append]. destruct sl as [|p sl]; [cbn in L; lia|]. cbn [bind]. apply skew_append2_nil; [exact W|lia].
Qed.
(** and its result need not be equal? to a skew list with the same elements *)
Theorem skew_append_equal_refuted : exists (a b s t : skew nat) l1 l2,
  holds a l1 /\ holds b l2 /\ skew_append a [b] = Ok s /\ holds t (l1 ++ l2) /\ contents s = l1 ++ l2 /\ s <> t.
Proof.
  destruct (skew_of_list nat [1;2;3]%nat) as (a & Ea & Ha). destruct (skew_of_list nat [4;5;6;7;8;9]%nat) as (b & Eb & Hb).
  destruct (skew_of_list nat ([1;2;3] ++ [4;5;6;7;8;9])%nat) as (t & Et & Ht).
  vm_compute in Ea, Eb, Et. injection Ea as <-. injection Eb as <-. injection Et as <-.
  do 6 eexists. split; [exact Ha|]. split; [exact Hb|]. split; [reflexivity|]. split; [exact Ht|]. split; [reflexivity|discriminate].
Qed.
(** starting at the end of a non-empty list is an error rather than the empty sequence *)
Theorem skew_range_at_end_refuted : forall A (sl : skew A) l, holds sl l -> l <> [] ->
  skew_to_lseq sl (Z.of_nat (length l)) None = Err.
Proof.
  intros A sl l [[W _] <-] N. rewrite skew_to_lseq_default by exact W. apply skew_to_lseq_err; [exact W| |lia].
  right. right. destruct (contents sl); [congruence|]. cbn [length]. lia.
Qed.

(** the hypotheses are met *)
Definition five : skew Z := match list_to_skew [10;20;30;40;50] with Ok s => s | _ => [] end.
Example five_repr : map fst five = [1; 1; 3] /\ holds five [10;20;30;40;50] /\ starts_1_1 five /\ ~ on_boundary five 3.
Proof.
  destruct (skew_of_list Z [10;20;30;40;50]) as (s & E & H). vm_compute in E. injection E as <-. split; [reflexivity|]. split; [exact H|]. split; [do 3 eexists; reflexivity|].
  intros [i Hi]. destruct i as [|[|[|[|i]]]]; vm_compute in Hi; try discriminate.
Qed.
Example five_take : skew_take five 3 = Err /\ skew_take five 2 = Ok [(1, Leaf 10); (1, Leaf 20)] /\ skew_list_ref five (-1) (Some 7) = Ok 7.
Proof. vm_compute. auto. Qed.
Example six_take : exists s, list_to_skew [1;2;3;4;5;6] = Ok s /\ map fst s = [3;3] /\ ~ starts_1_1 s /\ skew_take s 4 = list_to_skew [1;2;3;4].
Proof. eexists. split; [vm_compute; reflexivity|]. split; [reflexivity|]. split; [|reflexivity]. intros (x & y & r & E). discriminate. Qed.

Print Assumptions skew_of_list.
Print Assumptions skew_to_list_correct.
Print Assumptions skew_equal_iff_same_elements.
Print Assumptions skew_empty_correct.
Print Assumptions skew_cons_correct.
Print Assumptions skew_car_correct.
Print Assumptions skew_cdr_correct.
Print Assumptions skew_ref_correct.
Print Assumptions skew_set_correct.
Print Assumptions skew_fold_correct.
Print Assumptions skew_length_correct.
Print Assumptions skew_map_correct.
Print Assumptions skew_range_correct.
Print Assumptions skew_iterator_correct.
Print Assumptions skew_split_partial.
Print Assumptions skew_split_out_of_range.
Print Assumptions skew_split_refuted.
Print Assumptions skew_append_partial.
Print Assumptions skew_append_empty_refuted.
Print Assumptions skew_append_equal_refuted.
Print Assumptions skew_range_at_end_refuted.
