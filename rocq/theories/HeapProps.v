(** C26: binary (min-max) heaps answer as a sorted multiset.
    [holds lt h l] (HeapSpec): [h] is a well-formed heap whose elements are [l] in some order;
    [is_min], [is_max]: an element of the list that no other precedes / follows.  [lt] is any
    strict weak order (equivalent elements may be distinct). *)
From Coq Require Import List Bool Arith Permutation Sorted Lia.
From Verif Require Import Outcome HeapModel HeapSpec HeapProofs HeapProofs2 HeapProofs3.
Import ListNotations.

Section Props.
Context {A : Type}.
Variables (lt : A -> A -> bool) (filler : A).

Theorem heap_make : forall s : store A, holds lt (make_heap s) [] /\ sized (make_heap s).
Proof. intros; apply (make_ok lt filler). Qed.
(** every cell of the storage up to [xlen] is set *)
Theorem heap_build : weak_order lt -> forall (s : store A) xlen ne,
  (forall i, 1 <= i <= xlen -> in_limit s i = true /\ cells s i <> None) ->
  exists h, build_heap lt s xlen ne = Ok h /\ sized h /\ limit (storage h) = limit s /\
    holds lt h (elements s (match ne with None => xlen | Some n => Nat.min n xlen end)).
Proof. intros WO; apply (build_ok lt filler WO). Qed.
Theorem heap_push : weak_order lt -> forall h l x, sized h -> holds lt h l ->
  (has_room h l -> exists h', push lt h x = Ok h' /\ holds lt h' (x :: l) /\ sized h' /\ limit (storage h') = limit (storage h)) /\
  (~ has_room h l -> push lt h x = Err).
Proof.
  intros WO h l x Sz Hh; split; intros R.
  - destruct (push_ok lt filler WO h l x Sz Hh R) as (h' & E & Ho & F1 & F2).
    exists h'; split; [exact E|]; split; [exact Ho|]; split; [|exact F2].
    unfold sized, cap_of in *. rewrite F1, F2; exact Sz.
  - eapply push_full; eauto.
Qed.
Theorem heap_find_min_max : weak_order lt -> forall h l fallback, holds lt h l -> l <> [] ->
  (exists r, find_min h fallback = Ok r /\ is_min lt r l) /\ (exists r, find_max lt h fallback = Ok r /\ is_max lt r l).
Proof.
  intros WO h l fb Hh NE. pose proof (find_min_ok lt filler WO h l fb Hh) as M. pose proof (find_max_ok lt filler WO h l fb Hh) as X.
  destruct l; [tauto|]. split; assumption.
Qed.
Theorem heap_pop_min_max : weak_order lt -> forall h l, holds lt h l -> l <> [] ->
  (exists r h' l', pop_min lt filler h = Ok (r, h') /\ is_min lt r l /\ Permutation l (r :: l') /\ holds lt h' l') /\
  (exists r h' l', pop_max lt filler h = Ok (r, h') /\ is_max lt r l /\ Permutation l (r :: l') /\ holds lt h' l').
Proof.
  intros WO h l Hh NE. split.
  - destruct (pop_min_ok lt filler WO h l Hh NE) as (r & h' & l' & E & M & Pm & Ho & _). exists r, h', l'; tauto.
  - destruct (pop_max_ok lt filler WO h l Hh NE) as (r & h' & l' & E & M & Pm & Ho & _). exists r, h', l'; tauto.
Qed.
Theorem heap_swap_min_max : weak_order lt -> forall h l x, holds lt h l -> l <> [] ->
  (exists r h' l', swap_min lt h x = Ok (r, h') /\ is_min lt r l /\ Permutation l (r :: l') /\ holds lt h' (x :: l')) /\
  (exists r h' l', swap_max lt h x = Ok (r, h') /\ is_max lt r l /\ Permutation l (r :: l') /\ holds lt h' (x :: l')).
Proof.
  intros WO h l x Hh NE. split.
  - destruct (swap_min_ok lt filler WO h l x Hh NE) as (r & h' & l' & E & M & Pm & Ho & _). exists r, h', l'; tauto.
  - destruct (swap_max_ok lt filler WO h l x Hh NE) as (r & h' & l' & E & M & Pm & Ho & _). exists r, h', l'; tauto.
Qed.
Theorem heap_empty_fails : forall h x, holds lt h [] ->
  find_min h None = Err /\ find_max lt h None = Err /\ pop_min lt filler h = Err /\ pop_max lt filler h = Err /\
  swap_min lt h x = Err /\ swap_max lt h x = Err.
Proof.
  intros h x Hh. pose proof (pop_empty lt filler h Hh). pose proof (swap_empty lt filler h x Hh).
  apply (holds_iff lt filler) in Hh. destruct Hh as (Nx & _). unfold find_min, find_max; rewrite Nx. cbn. tauto.
Qed.
Theorem heap_remove_delete : weak_order lt -> forall h l, holds lt h l ->
  (forall pred, exists h', remove lt filler h pred = Ok h' /\ holds lt h' (filter (fun x => negb (pred x)) l)) /\
  (forall same item, exists h', delete lt filler same h item = Ok h' /\ holds lt h' (filter (fun x => negb (same item x)) l)).
Proof.
  intros WO h l Hh. split.
  - intros pred. destruct (remove_ok lt filler WO pred h l Hh) as (h' & E & Ho & _). exists h'; tauto.
  - intros same item. destruct (remove_ok lt filler WO (same item) h l Hh) as (h' & E & Ho & _). exists h'; tauto.
Qed.
Theorem heap_find_correct : forall h l pred, holds lt h l ->
  exists r, heap_find pred h = Ok r /\
    match r with Some x => In x l /\ pred x = true | None => forall x, In x l -> pred x = false end.
Proof. intros; apply (heap_find_ok lt filler); assumption. Qed.
Theorem heap_size_clear_copy : forall h l, holds lt h l ->
  num_entries h = length l /\ (is_empty h = true <-> l = []) /\ holds lt (heap_clear h) [] /\ holds lt (heap_copy h) l.
Proof.
  intros h l Hh. split; [|split; [|split]].
  - apply (holds_iff lt filler) in Hh. destruct Hh as (Nx & _). unfold num_entries; rewrite Nx; lia.
  - apply (holds_iff lt filler) in Hh. destruct Hh as (Nx & _). unfold is_empty; rewrite Nx. destruct l; cbn; split; congruence.
  - apply (clear_ok lt filler h l Hh).
  - apply copy_ok; assumption.
Qed.

(** every history, on any heap whose capacity slot is right: those of make-binary-heap and
    build-binary-heap (theorems heap_make, heap_build), but not copies (heap_copy_push_refuted) *)
Theorem heap_history_partial : weak_order lt -> forall os h l, sized h -> holds lt h l ->
  exists answers h' l', perform_all lt filler h os = Ok (answers, h') /\
    spec_run lt (limit (storage h)) l os answers l' /\ holds lt h' l' /\ sized h'.
Proof.
  intros WO; induction os as [|o os IH]; intros h l Sz Hh.
  - exists [], h, l. cbn. tauto.
  - assert (St : exists a h1 l1, perform lt filler h o = Ok (a, h1) /\ spec_step lt (limit (storage h)) l o a l1 /\ holds lt h1 l1 /\
        cap h1 = cap h /\ limit (storage h1) = limit (storage h)).
    { destruct o as [x| | | | |x|x|pred| |]; cbn [perform spec_step].
      - destruct (match limit (storage h) with Some n => n <=? length l | None => false end) eqn:E.
        + rewrite (push_full lt filler h l x Sz Hh).
          * exists Failed, h, l; tauto.
          * unfold has_room. destruct (limit (storage h)); [apply Nat.leb_le in E; lia|discriminate].
        + destruct (push_ok lt filler WO h l x Sz Hh) as (h' & E' & Ho & F1 & F2).
          { unfold has_room. destruct (limit (storage h)); [apply Nat.leb_gt in E; lia|exact Logic.I]. }
          rewrite E'. exists Done, h', (x :: l); repeat split; auto; apply Ho.
      - destruct l as [|y l]; cbn [is_nil].
        + rewrite (proj1 (pop_empty lt filler h Hh)). exists Failed, h, []; tauto.
        + destruct (pop_min_ok lt filler WO h _ Hh ltac:(discriminate)) as (r & h' & l' & E & M & Pm & Ho & F1 & F2).
          rewrite E. exists (Value r), h', l'. split; [reflexivity|]. split; [exists r; tauto|tauto].
      - destruct l as [|y l]; cbn [is_nil].
        + rewrite (proj2 (pop_empty lt filler h Hh)). exists Failed, h, []; tauto.
        + destruct (pop_max_ok lt filler WO h _ Hh ltac:(discriminate)) as (r & h' & l' & E & M & Pm & Ho & F1 & F2).
          rewrite E. exists (Value r), h', l'. split; [reflexivity|]. split; [exists r; tauto|tauto].
      - pose proof (find_min_ok lt filler WO h l None Hh) as M. destruct l as [|y l]; cbn [is_nil].
        + rewrite M. exists Failed, h, []; tauto.
        + destruct M as (r & -> & M). exists (Value r), h, (y :: l). split; [reflexivity|]. split; [split; [reflexivity|exists r; tauto]|tauto].
      - pose proof (find_max_ok lt filler WO h l None Hh) as M. destruct l as [|y l]; cbn [is_nil].
        + rewrite M. exists Failed, h, []; tauto.
        + destruct M as (r & -> & M). exists (Value r), h, (y :: l). split; [reflexivity|]. split; [split; [reflexivity|exists r; tauto]|tauto].
      - destruct l as [|y l]; cbn [is_nil].
        + rewrite (proj1 (swap_empty lt filler h x Hh)). exists Failed, h, []; tauto.
        + destruct (swap_min_ok lt filler WO h _ x Hh ltac:(discriminate)) as (r & h' & l' & E & M & Pm & Ho & F1 & F2).
          rewrite E. exists (Value r), h', (x :: l'). split; [reflexivity|]. split; [exists r, l'; auto|tauto].
      - destruct l as [|y l]; cbn [is_nil].
        + rewrite (proj2 (swap_empty lt filler h x Hh)). exists Failed, h, []; tauto.
        + destruct (swap_max_ok lt filler WO h _ x Hh ltac:(discriminate)) as (r & h' & l' & E & M & Pm & Ho & F1 & F2).
          rewrite E. exists (Value r), h', (x :: l'). split; [reflexivity|]. split; [exists r, l'; auto|tauto].
      - destruct (remove_ok lt filler WO pred h l Hh) as (h' & E & Ho & F1 & F2). rewrite E.
        exists Done, h', (filter (fun x => negb (pred x)) l). split; [reflexivity|]. split; [split; reflexivity|tauto].
      - destruct (clear_ok lt filler h l Hh) as [Ho [F1 F2]]. exists Done, (heap_clear h), []. tauto.
      - exists (Number (num_entries h)), h, l. split; [reflexivity|]. split; [|tauto]. split; [|reflexivity].
        apply (holds_iff lt filler) in Hh. destruct Hh as (Nx & _). unfold num_entries; rewrite Nx; f_equal; lia. }
    destruct St as (a & h1 & l1 & E & S1 & Ho & F1 & F2).
    destruct (IH h1 l1) as (answers & h2 & l2 & E2 & S2 & Ho2 & Sz2).
    { unfold sized, cap_of in *. rewrite F1, F2; exact Sz. }
    { exact Ho. }
    exists (a :: answers), h2, l2. cbn [perform_all]. rewrite E, E2. split; [reflexivity|].
    split; [|tauto]. cbn [spec_run]. exists l1. rewrite F2 in S2. tauto.
Qed.
(** draining with pop-min! yields the elements in order *)
Fixpoint drain (n : nat) (h : heap A) : res (list A) :=
  match n with
  | O => Ok []
  | S n => match pop_min lt filler h with
           | Ok (r, h') => match drain n h' with Ok l => Ok (r :: l) | e => e end
           | Err => Err | Panic => Panic | UB => UB end
  end.
Theorem heap_drain_sorts : weak_order lt -> forall h l, holds lt h l ->
  exists out, drain (length l) h = Ok out /\ Permutation out l /\ StronglySorted (fun a b => lt b a = false) out.
Proof.
  intros WO. enough (forall n h l, length l = n -> holds lt h l ->
    exists out, drain n h = Ok out /\ Permutation out l /\ StronglySorted (fun a b => lt b a = false) out) by eauto.
  induction n as [|n IH]; intros h l EL Hh.
  - destruct l; [|discriminate]. exists []; repeat split; constructor.
  - destruct (pop_min_ok lt filler WO h l Hh) as (r & h' & l' & E & M & Pm & Ho & _); [destruct l; discriminate|].
    destruct (IH h' l') as (out & E2 & P2 & S2); [apply Permutation_length in Pm; cbn in Pm; lia|exact Ho|].
    exists (r :: out). cbn [drain]. rewrite E, E2. split; [reflexivity|]. split; [rewrite P2; symmetry; exact Pm|].
    constructor; [exact S2|]. apply Forall_forall. intros y Hy. apply M. rewrite Pm. right. rewrite <- P2; exact Hy.
Qed.

(** findings: binary-heap-copy leaves the capacity unbound, so nothing can be pushed to a copy *)
Theorem heap_copy_push_refuted : forall (h : heap A) x, push lt (heap_copy h) x = Err.
Proof. reflexivity. Qed.
End Props.

(** binary-heap-check rejects a proper heap with equal elements *)
Theorem heap_check_equal_elements_refuted : exists h : heap nat, holds Nat.ltb h [1; 1] /\ heap_check Nat.ltb h = Ok false.
Proof.
  exists (mk_heap Infinite (mk_store (fun i => if i <? 3 then Some 1 else None) None) 3).
  split; [|reflexivity]. split; [|cbn; reflexivity]. split; cbn.
  - lia.
  - intros i Hi. replace (i <=? 2) with true by (symmetry; apply Nat.leb_le; lia). discriminate.
  - exact Logic.I.
  - intros j Hj. assert (j = 2) as -> by lia. reflexivity.
  - intros; lia.
Qed.

(** the hypotheses are met *)
Lemma nat_weak_order : weak_order Nat.ltb.
Proof.
  split; intros.
  - apply Nat.ltb_irrefl.
  - apply Nat.ltb_lt in H, H0. apply Nat.ltb_lt; lia.
  - apply Nat.ltb_lt in H. destruct (Nat.ltb_spec x z); [left; reflexivity|right; apply Nat.ltb_lt; lia].
Qed.
Example heap_nonvacuous :
  let os := [Push 5; Push 3; Push 8; Push 1; Push 9; PopMax; PopMin; SwapMax 0; FindMax; PopMin; Count; Remove (Nat.eqb 3); Push 4; PopMax; PopMax; PopMax; Push 7; Clear; Push 2; FindMin] in
  match perform_all Nat.ltb 0 (make_heap (mk_store (fun _ => Some 0) (Some 5))) os with
  | Ok (answers, _) => answers = [Done; Done; Done; Done; Done; Value 9; Value 1; Value 8; Value 5; Value 0; Number 2; Done; Done; Value 5; Value 4; Failed; Done; Done; Done; Value 2]
  | _ => False
  end.
Proof. vm_compute. reflexivity. Qed.

Print Assumptions heap_make.
Print Assumptions heap_build.
Print Assumptions heap_push.
Print Assumptions heap_find_min_max.
Print Assumptions heap_pop_min_max.
Print Assumptions heap_swap_min_max.
Print Assumptions heap_empty_fails.
Print Assumptions heap_remove_delete.
Print Assumptions heap_find_correct.
Print Assumptions heap_size_clear_copy.
Print Assumptions heap_history_partial.
Print Assumptions heap_drain_sorts.
Print Assumptions heap_copy_push_refuted.
Print Assumptions heap_check_equal_elements_refuted.
