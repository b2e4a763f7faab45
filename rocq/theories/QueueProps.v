(** C27, plain queues. *)
From Coq Require Import List Bool ZArith Lia.
From Verif Require Import Outcome QueueModel QueueSpec QueueProofs.
Import ListNotations.
Local Open Scope Z_scope.
Ltac Zify.zify_post_hook ::= idtac.
Section P.
Context {V : Type} (nilv : V) (is_marker : V -> bool).
Lemma existsb_rev (f : V -> bool) l : existsb f (rev l) = existsb f l.
Proof. induction l as [|x r IH]; [reflexivity|]. cbn [rev existsb]. rewrite existsb_app, IH. cbn [existsb]. destruct (f x), (existsb f r); reflexivity. Qed.
Lemma news_ext (cmp : V -> V -> bool) a b l : (forall x, existsb (cmp x) a = existsb (cmp x) b) -> news cmp a l = news cmp b l.
Proof. revert a b. induction l as [|x r IH]; intros a b H; cbn [news]; [reflexivity|]. rewrite H. destruct (existsb (cmp x) b); [now apply IH|]. f_equal. apply IH. intros y. cbn [existsb]. now rewrite H. Qed.
Lemma pick_enqueue_news (cmp : V -> V -> bool) lis ins : forall xs, pick_enqueue cmp lis xs ins = rev (news cmp (xs ++ lis) ins) ++ xs.
Proof.
  induction ins as [|i r IH]; intros xs; cbn [pick_enqueue news]; [reflexivity|]. unfold member at 1 2. rewrite existsb_app.
  rewrite (orb_comm (existsb (cmp i) lis)). destruct (existsb (cmp i) xs || existsb (cmp i) lis); rewrite IH; [reflexivity|]. cbn [rev app]. now rewrite <- app_assoc.
Qed.
Lemma pick_push_news (cmp : V -> V -> bool) lis ins : forall new, pick_push cmp lis new ins = rev (news cmp (new ++ lis) ins) ++ new.
Proof.
  induction ins as [|i r IH]; intros new; cbn [pick_push news]; [reflexivity|]. unfold member.
  destruct (existsb (cmp i) (new ++ lis)); rewrite IH; [reflexivity|]. cbn [rev app]. now rewrite <- app_assoc.
Qed.
Definition clean (vs : list V) : Prop := forall v, In v vs -> is_marker v = false.
Lemma news_incl (cmp : V -> V -> bool) l : forall t x, In x (news cmp t l) -> In x l.
Proof. induction l as [|y r IH]; intros t x H; cbn [news] in H; [assumption|]. destruct (existsb (cmp y) t); [right; eauto|]. destruct H as [->|H]; [now left|right; eauto]. Qed.
Lemma spec1_clean o vs : clean vs -> clean (items o) -> clean (fst (spec1 o vs)).
Proof.
  intros C I v H. destruct o; cbn [spec1 items fst] in *; auto.
  - apply in_app_or in H as [H|H]; auto.
  - apply in_app_or in H as [H|H]; auto. eapply I, news_incl, H.
  - apply in_app_or in H as [H|H]; auto. apply I. now apply in_rev in H.
  - apply in_app_or in H as [H|H]; auto. apply I. apply in_rev in H. eapply news_incl, H.
  - destruct vs; cbn in H; [contradiction|]. apply C. now right.
  - apply filter_In in H as [H _]. auto.
Qed.
Lemma drop_clean vs : clean vs -> drop_markers is_marker vs = vs.
Proof. intros C. destruct vs as [|v r]; [reflexivity|]. cbn. now rewrite (C v (or_introl eq_refl)). Qed.
Lemma run1_rep o h q vs : rep h q vs -> clean vs ->
  exists h2 q2, run1 nilv is_marker o h q = Ok (h2, q2, snd (spec1 o vs)) /\ rep h2 q2 (fst (spec1 o vs)).
Proof.
  intros R C. pose proof (rep_elements _ _ _ R) as EE. pose proof (rep_empty _ _ _ R) as EM.
  destruct o as [v more|cmp v more|v more|cmp v more| | | | | | | |pred|pred|l]; cbn [run1 spec1 fst snd].
  - destruct (enqueue_rep h q vs (v :: more) R ltac:(discriminate)) as (h1 & hd & tl & h2 & q2 & E1 & E2 & E3 & R2).
    rewrite E1, E2. cbn [bind]. rewrite E3. cbn [bind fst snd]. eauto.
  - rewrite EE. cbn [bind]. rewrite pick_enqueue_news. cbn [app]. rewrite app_nil_r.
    destruct (news cmp vs (v :: more)) as [|w ws] eqn:EN.
    + cbn [rev]. rewrite app_nil_r. eauto.
    + destruct (enqueue_rep h q vs (w :: ws) R ltac:(discriminate)) as (h1 & hd & tl & h2 & q2 & E1 & E2 & E3 & R2).
      destruct (rev (w :: ws)) as [|y ys] eqn:ER; [apply (f_equal (@length V)) in ER; rewrite rev_length in ER; discriminate|].
      rewrite <- ER, rev_involutive, rev_length, E1, E2. cbn [bind]. rewrite E3. cbn [bind fst snd]. eauto.
  - destruct (push_rep h q vs (rev (v :: more)) R) as (h1 & hd & tl & h2 & q2 & E1 & E2 & E3 & R2).
    { intros E. apply (f_equal (@length V)) in E. rewrite rev_length in E. discriminate. }
    rewrite E1, E2. cbn [bind]. rewrite rev_length in E3. rewrite E3. cbn [bind fst snd]. eauto.
  - rewrite EE. cbn [bind]. rewrite pick_push_news. cbn [app]. rewrite app_nil_r.
    destruct (rev (news cmp vs (v :: more))) as [|w ws] eqn:EN.
    + eauto.
    + destruct (push_unique_rep h q vs (w :: ws) R ltac:(discriminate)) as (h1 & p & q2 & E1 & E2 & R2). rewrite E1, E2. cbn [bind]. eauto.
  - destruct (dequeue_rep nilv is_marker h q vs R) as (h2 & q2 & E & R2). rewrite E. cbn [bind]. rewrite drop_clean in R2 |- * by assumption.
    destruct vs; cbn [hd_error tl fst snd] in *; eauto.
  - destruct (dequeue_all_rep is_marker h q vs R C) as (q2 & E & R2). rewrite E. cbn [bind fst snd]. eauto.
  - rewrite EM. destruct vs as [|v r]; [eauto|]. rewrite (front_rep _ _ _ _ R). cbn [bind]. eauto.
  - rewrite EM. destruct (rev vs) as [|w r] eqn:ER.
    + apply (f_equal (@rev V)) in ER. rewrite rev_involutive in ER. subst vs. cbn. eauto.
    + apply (f_equal (@rev V)) in ER. rewrite rev_involutive in ER. cbn [rev] in ER. subst vs. rewrite (rear_rep _ _ _ _ R). cbn [bind].
      destruct (rev r ++ [w]) eqn:E0; [apply app_eq_nil in E0 as [_ ?]; discriminate|]. eauto.
  - destruct (qlength_rep h q vs R) as (q2 & E & R2). rewrite E. cbn [bind fst snd]. eauto.
  - rewrite EM. eauto.
  - rewrite EE. cbn [bind]. eauto.
  - rewrite EE. cbn [bind]. destruct (existsb pred vs) eqn:EX.
    + destruct (alloc_set_rep h q (filter (fun v => negb (pred v)) vs) (proj1 R)) as (h1 & p & q2 & E1 & E2 & R2). rewrite E1, E2. cbn [bind]. eauto.
    + assert (F : filter (fun v => negb (pred v)) vs = vs).
      { clear - EX. induction vs as [|x r IH]; [reflexivity|]. cbn [existsb] in EX. apply orb_false_iff in EX as [A B]. cbn [filter]. rewrite A. cbn [negb]. now rewrite IH. }
      rewrite F. eauto.
  - rewrite EE. cbn [bind]. eauto.
  - destruct (alloc_set_rep h q l (proj1 R)) as (h1 & p & q2 & E1 & E2 & R2). rewrite E1, E2. cbn [bind]. eauto.
Qed.
Lemma run_rep os : forall h q vs, rep h q vs -> clean vs -> Forall (fun o => clean (items o)) os ->
  exists h2 q2, run nilv is_marker os h q = Ok (h2, q2, snd (spec_run os vs)) /\ rep h2 q2 (fst (spec_run os vs)).
Proof.
  induction os as [|o r IH]; intros h q vs R C F; cbn [run spec_run]; [eauto|]. inversion F; subst.
  destruct (run1_rep o h q vs R C) as (h1 & q1 & E1 & R1). rewrite E1. cbn [bind].
  pose proof (spec1_clean o vs C H1) as C1. destruct (spec1 o vs) as [vs1 a]. cbn [fst snd] in *.
  destruct (IH h1 q1 vs1 R1 C1 H2) as (h2 & q2 & E2 & R2). rewrite E2. cbn [bind]. destruct (spec_run r vs1) as [vs2 l]. cbn [fst snd] in *. eauto.
Qed.
Lemma makeq_rep : rep (@empty_heap V) makeq [].
Proof. split; [intros l _; reflexivity|]. exists []. cbn [makeq head tail len]. do 3 (split; [constructor|]). split; [congruence|now right]. Qed.

(** C27, plain queues: every sequence of operations on a new queue, whose items are not the module's
    private close marker, answers as the same operations on a sequence, and touches no dead pair. *)
Theorem queue_history os : Forall (fun o => forall v, In v (items o) -> is_marker v = false) os ->
  exists h q, run nilv is_marker os empty_heap makeq = Ok (h, q, snd (spec_run os [])).
Proof. intros H. destruct (run_rep os _ _ _ makeq_rep ltac:(intros ? []) H) as (h & q & E & _). eauto. Qed.
(** First in, first out: what enqueue! puts in comes out of dequeue! in the same order. *)
Lemma spec_deq (vs : list V) : spec_run (map (fun _ => Dequeue) vs) vs = ([], map Val vs).
Proof. induction vs as [|v r IH]; [reflexivity|]. cbn [map spec_run spec1]. now rewrite IH. Qed.
Theorem queue_fifo vs : (forall v, In v vs -> is_marker v = false) ->
  exists h q, run nilv is_marker (map (fun v => Enqueue v []) vs ++ map (fun _ => Dequeue) vs) empty_heap makeq
              = Ok (h, q, map (fun _ => Unit) vs ++ map Val vs).
Proof.
  intros M. destruct (queue_history (map (fun v => Enqueue v []) vs ++ map (fun _ => Dequeue) vs)) as (h & q & E).
  { apply Forall_app. split; apply Forall_map; [|apply Forall_forall; intros ? ? ? []]. apply Forall_forall. intros x Hx v [<-|[]]. auto. }
  exists h, q. rewrite E. repeat f_equal. clear E. 
  assert (G : forall (ws us : list V) r, spec_run (map (fun v => Enqueue v []) ws ++ r) us = let '(s, l) := spec_run r (us ++ ws) in (s, map (fun _ => Unit) ws ++ l)).
  { induction ws as [|w ws IH]; intros us r; cbn [map app spec_run spec1]; [rewrite app_nil_r; now destruct (spec_run r us)|].
    rewrite IH, <- app_assoc. cbn [app]. now destruct (spec_run r (us ++ w :: ws)). }
  rewrite G. cbn [app]. now rewrite spec_deq.
Qed.
(** An item equal to one of the queue is not added by enqueue-unique!: no two items of a queue filled
    by it alone are equal. *)
Lemma news_nodup (cmp : V -> V -> bool) l : forall t, (forall x, In x t -> forall y, In y (news cmp t l) -> cmp y x = false).
Proof.
  induction l as [|z r IH]; intros t x Hx y Hy; cbn [news] in Hy; [contradiction|].
  destruct (existsb (cmp z) t) eqn:E; [eapply IH; eassumption|]. destruct Hy as [<-|Hy].
  - destruct (cmp z x) eqn:Ec; [|reflexivity]. rewrite <- E. symmetry. apply existsb_exists. eauto.
  - eapply IH; [|exact Hy]. now right.
Qed.
Theorem news_pairwise (cmp : V -> V -> bool) l : forall t, ForallOrdPairs (fun a b => cmp b a = false) (news cmp t l).
Proof.
  induction l as [|z r IH]; intros t; cbn [news]; [constructor|]. destruct (existsb (cmp z) t); [apply IH|]. constructor; [|apply IH].
  apply Forall_forall. intros y Hy. eapply news_nodup; [|exact Hy]. now left.
Qed.
End P.
(** a history that meets the hypothesis *)
Example queue_case : exists h q, run (-1) (Z.eqb 99) [Enqueue 1 [2]; Push 3 [4]; EnqueueUnique Z.eqb 2 [5; 5; 6]; Length; Dequeue; Rear; RemoveIf Z.even; ToList; DequeueAll; Dequeue] empty_heap makeq
  = Ok (h, q, [Unit; Unit; Unit; Num 6; Val 4; Val 6; Bool true; Vals [3; 1; 5]; Vals [3; 1; 5]; EmptyError]).
Proof. apply (queue_history (-1) (Z.eqb 99) [Enqueue 1 [2]; Push 3 [4]; EnqueueUnique Z.eqb 2 [5; 5; 6]; Length; Dequeue; Rear; RemoveIf Z.even; ToList; DequeueAll; Dequeue]). repeat constructor; cbn; intros; intuition subst; reflexivity. Qed.
(** The close marker of a closed mtqueue is an item like another for queue-length and queue->list
    (ext/data/queue.scm:353, 403 do not look for it): here 99 is the marker, and the sequence the
    user sees is empty. *)
Theorem marker_is_counted_refuted : exists h q, run (-1) (Z.eqb 99) [Enqueue 99 []; Length; ToList; Front; Dequeue] empty_heap makeq
  = Ok (h, q, [Unit; Num 1; Vals [99]; Val 99; EmptyError]).
Proof. eexists _, _. vm_compute. reflexivity. Qed.

Print Assumptions queue_history.
Print Assumptions queue_fifo.
Print Assumptions news_pairwise.
Print Assumptions marker_is_counted_refuted.
