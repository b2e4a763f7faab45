(** C16: monotonic-merge and class precedence lists. *)
From Coq Require Import List Bool Arith Lia.
From Verif Require Import Outcome CplModel CplSpec CplProofs.
Import ListNotations.

Definition proper_seqs (ls : list (list nat)) : list seq := map (fun l => Seq l false) ls.
Lemma in_proper : forall ls s, In s (proper_seqs ls) -> In (elems s) ls /\ dotted s = false.
Proof. intros ls s H. apply in_map_iff in H. destruct H as (l & <- & H). auto. Qed.
(** monotonic-merge always ends; a list it returns is a consistent order of exactly the
    elements of the sequences *)
Theorem monotonic_merge_sound : forall ls r, monotonic_merge (proper_seqs ls) = Ok (Some r) ->
  consistent ls r /\ forall x, In x r <-> exists l, In l ls /\ In x l.
Proof.
  intros ls r H. unfold monotonic_merge in H. apply merge_loop_sound in H. destruct H as (r1 & E & M). cbn [rev app] in E. subst r1. destruct (merged_sound _ _ M) as (ND & SS & BK).
  assert (SS' : forall l, In l ls -> subseq l r). { intros l Hl. apply (SS (Seq l false)). apply in_map_iff. eauto. }
  split; [split; auto|]. intros x. split.
  - intros Hx. destruct (BK x Hx) as (s & Hs & Hi). apply in_proper in Hs. destruct Hs as [Hs _]. eauto.
  - intros (l & Hl & Hx). eapply subseq_In; eauto.
Qed.
(** it answers #f exactly when there is no consistent order (no sequence contains #f) *)
Theorem monotonic_merge_decides : forall ls, (forall l x, In l ls -> In x l -> x <> FALSE) ->
  (exists r, monotonic_merge (proper_seqs ls) = Ok (Some r) /\ consistent ls r) \/ (monotonic_merge (proper_seqs ls) = Ok None /\ forall r, ~ consistent ls r).
Proof.
  intros ls Nf. destruct (merge_loop_total (S (total (proper_seqs ls))) (proper_seqs ls) [] ltac:(lia)) as (o & E & A & _). change (monotonic_merge (proper_seqs ls) = Ok o) in E. destruct o as [r|].
  - left. exists r. split; auto. now apply monotonic_merge_sound in E.
  - right. split; auto. intros r (ND & SS). apply (A eq_refl) with (r := r).
    + intros s Hs. now apply in_proper in Hs.
    + intros s x Hs Hx. apply in_proper in Hs. destruct Hs. eauto.
    + split; auto. intros s Hs. apply SS. now apply in_proper in Hs.
Qed.
(** of several consistent orders it takes the one whose next element comes from the
    earliest possible sequence: the sequences before the chosen one are empty or begin
    with an element that no consistent order begins with *)
Theorem monotonic_merge_prefers_first : forall ls h r, (forall l x, In l ls -> In x l -> x <> FALSE) -> monotonic_merge (proper_seqs ls) = Ok (Some (h :: r)) ->
  exists pre t post, ls = pre ++ (h :: t) :: post /\ forall h0 t0, In (h0 :: t0) pre -> forall r0, ~ consistent ls (h0 :: r0).
Proof.
  intros ls h r Nf H. unfold monotonic_merge in H. cbn [merge_loop] in H. destruct (forallb nullp (proper_seqs ls)); [discriminate|].
  destruct (Nat.eqb_spec (select (proper_seqs ls) (proper_seqs ls)) FALSE) as [|N]; [discriminate|]. apply merge_loop_sound in H. destruct H as (r1 & E & _). cbn [rev app] in E. injection E as E _.
  destruct (select_spec (proper_seqs ls) (proper_seqs ls)) as [F|(pre & s & h1 & t & post & E1 & E2 & E3 & B & P)]; [contradiction|]. rewrite E3 in E. subst h1.
  unfold proper_seqs in E1. apply map_eq_app in E1. destruct E1 as (lp & lq & -> & <- & E4). destruct lq as [|l lq]; [discriminate|]. cbn [map] in E4. injection E4 as <- <-. cbn [elems] in E2. subst l.
  exists lp, t, lq. split; auto. intros h0 t0 Hp r0 (ND & SS). assert (Bk : blocked h0 (proper_seqs (lp ++ (h :: t) :: lq)) = true) by (apply (P (Seq (h0 :: t0) false) h0 t0); auto; apply in_map_iff; eauto).
  apply blocked_spec in Bk. destruct Bk as (s & m & t1 & Hs & Es & Ht). apply in_proper in Hs. destruct Hs as [Hs _]. rewrite Es in Hs. specialize (SS _ Hs). inversion ND; subst. inversion SS; subst.
  - apply H1. eapply subseq_In; eauto.
  - apply H1. eapply subseq_In; [eauto|now right].
Qed.
(** an element #f is taken for the sign of inconsistency *)
Theorem monotonic_merge_false_element_refuted : exists ls r, consistent ls r /\ monotonic_merge (proper_seqs ls) = Ok None.
Proof. exists [[FALSE]], [FALSE]. split; [|reflexivity]. split; [repeat constructor; auto|]. intros s [<-|[]]. apply subseq_refl. Qed.
(** improper sequences: never a list *)
Theorem monotonic_merge_dotted : forall ss s, In s ss -> dotted s = true -> monotonic_merge ss = Ok None.
Proof.
  intros ss s Hs D. destruct (merge_loop_total (S (total ss)) ss [] ltac:(lia)) as (o & E & _ & A). change (monotonic_merge ss = Ok o) in E. destruct o; auto. rewrite (A ltac:(discriminate) s Hs) in D. discriminate.
Qed.
Example C16_ex1 : monotonic_merge (proper_seqs [[1; 3; 5]; [2; 3; 4]; [1; 2]]) = Ok (Some [1; 2; 3; 5; 4]). Proof. reflexivity. Qed.
Example C16_ex2 : monotonic_merge (proper_seqs [[1; 2]; [2; 1]]) = Ok None. Proof. reflexivity. Qed.

(** * class precedence lists *)
Section CPL.
Variables OBJECT TOP : nat.
(** the classes defined so far with their precedence lists *)
Definition table := list (nat * list nat).
Definition cpl_of (t : table) (c : nat) : list nat := match find (fun p => fst p =? c) t with Some p => snd p | None => [] end.
Definition is_class (t : table) (c : nat) : Prop := In c (map fst t).
(** defining a class: it is new and its superclasses exist *)
Inductive defines : table -> nat -> list nat -> table -> Prop :=
| defines_intro : forall t c supers l, ~ is_class t c -> c <> FALSE -> (forall s, In s supers -> is_class t s) ->
    compute_cpl OBJECT TOP (cpl_of t OBJECT) (cpl_of t) c supers = Ok l -> defines t c supers ((c, l) :: t).
(** any history of class definitions starting from built-in classes *)
Inductive history (t0 : table) : table -> Prop :=
| h_start : history t0 t0
| h_define : forall t c supers t', history t0 t -> defines t c supers t' -> history t0 t'.
(** a good table: each class's list starts with the class, has no duplicates, contains
    only classes, and contains the list of each of them in order *)
Definition good (t : table) : Prop :=
  NoDup (map fst t) /\ is_class t OBJECT /\ cpl_of t OBJECT = [OBJECT; TOP] /\
  forall c l, In (c, l) t -> c <> FALSE /\ (exists r, l = c :: r) /\ NoDup l /\ forall d, In d l -> is_class t d /\ subseq (cpl_of t d) l.

Lemma cpl_of_in : forall t c l, NoDup (map fst t) -> In (c, l) t -> cpl_of t c = l.
Proof.
  unfold cpl_of. induction t as [|[d m] t IH]; intros c l ND H; [destruct H|]. cbn [map fst] in ND. inversion ND; subst. cbn [find fst]. destruct (Nat.eqb_spec d c) as [->|N].
  - destruct H as [H|H]; [now injection H as <-|]. exfalso. apply H2. apply in_map_iff. exists (c, l). auto.
  - destruct H as [H|H]; [congruence|]. auto.
Qed.
Lemma is_class_in : forall t c, is_class t c -> exists l, In (c, l) t.
Proof. intros t c H. apply in_map_iff in H. destruct H as ([d l] & <- & H). eauto. Qed.
Lemma cpl_of_other : forall t c l d, d <> c -> cpl_of ((c, l) :: t) d = cpl_of t d.
Proof. intros. unfold cpl_of. cbn [find fst]. destruct (Nat.eqb_spec c d); [congruence|reflexivity]. Qed.

(** the sequences merged for a class definition *)
Definition real_supers (supers : list nat) : list nat := filter (fun c => negb ((c =? OBJECT) || (c =? TOP))) supers.
Definition inputs (t : table) (supers : list nat) : list (list nat) := map (cpl_of t) (real_supers supers) ++ [[OBJECT; TOP]] ++ [real_supers supers ++ [OBJECT]].
Lemma remq_filter : forall l, remq TOP (remq OBJECT l) = real_supers l.
Proof.
  unfold remq, real_supers. induction l as [|x l IH]; cbn [filter]; auto. destruct (Nat.eqb_spec OBJECT x); cbn [negb filter].
  - subst. rewrite Nat.eqb_refl. cbn. auto.
  - destruct (Nat.eqb_spec x OBJECT); [congruence|]. cbn [orb]. destruct (Nat.eqb_spec TOP x), (Nat.eqb_spec x TOP); try congruence; cbn [negb]; auto. now f_equal.
Qed.
Lemma compute_cpl_eq : forall t c supers, good t -> compute_cpl OBJECT TOP (cpl_of t OBJECT) (cpl_of t) c supers = (do r <- monotonic_merge (proper_seqs (inputs t supers)); match r with None => Err | Some l => Ok (c :: l) end).
Proof. intros t c supers (_ & _ & Eo & _). unfold compute_cpl. rewrite remq_filter, Eo. reflexivity. Qed.
Lemma inputs_class : forall t supers l x, good t -> (forall s, In s supers -> is_class t s) -> In l (inputs t supers) -> In x l -> is_class t x /\ x <> FALSE.
Proof.
  intros t supers l x (ND & Co & Eo & G) Hs Hl Hx.
  assert (K : forall d, is_class t d -> d <> FALSE) by (intros d Hd; apply is_class_in in Hd; destruct Hd as (m & Hm); now destruct (G d m Hm)).
  destruct (is_class_in _ _ Co) as (lo & Hlo). assert (lo = [OBJECT; TOP]) by (rewrite <- Eo; symmetry; now apply cpl_of_in). subst lo. destruct (G _ _ Hlo) as (_ & _ & _ & Go).
  assert (C : is_class t x); [|auto]. unfold inputs in Hl. apply in_app_or in Hl. destruct Hl as [Hl|Hl].
  - apply in_map_iff in Hl. destruct Hl as (s & <- & H2). apply filter_In in H2. destruct H2 as [H2 _]. apply Hs, is_class_in in H2. destruct H2 as (ls & H2). rewrite (cpl_of_in t s ls) in Hx by auto. destruct (G _ _ H2) as (_ & _ & _ & Gs). now apply Gs.
  - destruct Hl as [<-|[<-|[]]]; [now apply Go|]. apply in_app_or in Hx. destruct Hx as [Hx|[<-|[]]]; auto. apply filter_In in Hx. now apply Hs.
Qed.
(** what a class definition gives: the class, then each ancestor exactly once, in an
    order that respects the local precedence order and the list of every superclass,
    with <object>, <top> included *)
Theorem compute_cpl_sound : forall t c supers l, good t -> compute_cpl OBJECT TOP (cpl_of t OBJECT) (cpl_of t) c supers = Ok l ->
  exists r, l = c :: r /\ NoDup r
    /\ (forall s, In s supers -> s <> OBJECT -> s <> TOP -> subseq (cpl_of t s) r)
    /\ subseq (real_supers supers) r /\ subseq [OBJECT; TOP] r
    /\ (forall d, In d r <-> d = OBJECT \/ d = TOP \/ exists s, In s supers /\ s <> OBJECT /\ s <> TOP /\ (d = s \/ In d (cpl_of t s))).
Proof.
  intros t c supers l G H. rewrite compute_cpl_eq in H by auto. destruct (monotonic_merge (proper_seqs (inputs t supers))) as [o| | |] eqn:E; try discriminate. cbn [bind] in H. destruct o as [r|]; [|discriminate]. injection H as <-. exists r. split; auto.
  apply monotonic_merge_sound in E. destruct E as ((ND & SS) & M). split; auto.
  assert (R : forall s, In s (real_supers supers) <-> In s supers /\ s <> OBJECT /\ s <> TOP). { intros s. unfold real_supers. rewrite filter_In. destruct (Nat.eqb_spec s OBJECT), (Nat.eqb_spec s TOP); cbn [orb negb]; intuition congruence. }
  assert (Sd : subseq (real_supers supers ++ [OBJECT]) r) by (apply SS; unfold inputs; apply in_or_app; right; right; left; auto).
  split; [|split; [|split]].
  - intros s Hs N1 N2. apply SS. unfold inputs. apply in_or_app. left. apply in_map. now apply R.
  - eapply subseq_trans; [|exact Sd]. clear. induction (real_supers supers); constructor; auto.
  - apply SS. unfold inputs. apply in_or_app. right. now left.
  - intros d. rewrite M. unfold inputs. split.
    + intros (l & Hl & Hd). apply in_app_or in Hl. destruct Hl as [Hl|[<-|[<-|[]]]].
      * apply in_map_iff in Hl. destruct Hl as (s & <- & Hs). apply R in Hs. right. right. exists s. tauto.
      * destruct Hd as [<-|[<-|[]]]; auto.
      * apply in_app_or in Hd. destruct Hd as [Hd|[<-|[]]]; auto. apply R in Hd. right. right. exists d. tauto.
    + intros [->|[->|(s & Hs & N1 & N2 & D)]].
      * exists [OBJECT; TOP]. split; [apply in_or_app; right; now left|now left].
      * exists [OBJECT; TOP]. split; [apply in_or_app; right; now left|right; now left].
      * assert (Rs : In s (real_supers supers)) by now apply R. destruct D as [->|D].
        -- exists (real_supers supers ++ [OBJECT]). split; [apply in_or_app; right; right; now left|]. apply in_or_app. now left.
        -- exists (cpl_of t s). split; [apply in_or_app; left; now apply in_map|auto].
Qed.
(** an error is raised exactly when there is no such order *)
Theorem compute_cpl_decides : forall t c supers, good t -> (forall s, In s supers -> is_class t s) ->
  (exists l, compute_cpl OBJECT TOP (cpl_of t OBJECT) (cpl_of t) c supers = Ok l) \/
  (compute_cpl OBJECT TOP (cpl_of t OBJECT) (cpl_of t) c supers = Err /\ ~ exists r, consistent (map (cpl_of t) (real_supers supers) ++ [[OBJECT; TOP]] ++ [real_supers supers ++ [OBJECT]]) r).
Proof.
  intros t c supers G Hs. rewrite compute_cpl_eq by auto. destruct (monotonic_merge_decides (inputs t supers)) as [(r & -> & _)|(-> & No)].
  - intros l x Hl Hx. now destruct (inputs_class t supers l x G Hs Hl Hx).
  - left. cbn [bind]. eauto.
  - right. split; auto. intros (r & Hr). exact (No r Hr).
Qed.
Lemma good_defines : forall t c supers t', good t -> defines t c supers t' -> good t'.
Proof.
  intros t c supers t' G D. inversion D as [? ? ? l Nc Nf Hs E]; subst. destruct (compute_cpl_sound t c supers l G E) as (r & -> & ND & Ss & _ & So & M). pose proof G as (NDt & Co & Eo & Gt).
  assert (Oc : OBJECT <> c) by (intros ->; auto).
  assert (Cls : forall d, In d r -> is_class t d /\ subseq (cpl_of t d) r).
  { intros d Hd. apply M in Hd. destruct (is_class_in _ _ Co) as (lo & Hlo). assert (lo = [OBJECT; TOP]) by (rewrite <- Eo; symmetry; now apply cpl_of_in). subst lo. destruct (Gt _ _ Hlo) as (_ & _ & _ & Go).
    destruct Hd as [->|[->|(s & H1 & N1 & N2 & H2)]].
    - split; auto. rewrite Eo. auto.
    - destruct (Go TOP ltac:(cbn; auto)) as [A B]. split; auto. eapply subseq_trans; eauto.
    - pose proof (Ss s H1 N1 N2) as Sb. destruct (is_class_in _ _ (Hs s H1)) as (ls & Hls). rewrite (cpl_of_in t s ls) in * by auto. destruct (Gt _ _ Hls) as (_ & _ & _ & Gs). destruct H2 as [->|H2]; [split; auto; now rewrite (cpl_of_in t s ls)|]. destruct (Gs d H2) as [A B]. split; auto. eapply subseq_trans; eauto. }
  assert (Cne : forall d, is_class t d -> d <> c) by (intros d Hd ->; contradiction).
  split; [|split; [|split]].
  - cbn [map fst]. constructor; auto.
  - right. auto.
  - rewrite cpl_of_other by auto. auto.
  - intros d m [H|H].
    + injection H as <- <-. split; auto. split; [eauto|]. split. { constructor; auto. intros Hc. destruct (Cls c Hc). contradiction. }
      intros d [<-|Hd]. * split; [left; auto|]. unfold cpl_of. cbn [find fst]. rewrite Nat.eqb_refl. apply subseq_refl.
      * destruct (Cls d Hd) as [A B]. split; [right; auto|]. rewrite cpl_of_other by auto. now constructor.
    + destruct (Gt d m H) as (A & B & C & D'). split; auto. split; auto. split; auto. intros e He. destruct (D' e He) as [F1 F2]. split; [right; auto|]. rewrite cpl_of_other by auto. auto.
Qed.
(** monotonicity over every history: the list of each class contains, in order, the list
    of each class in it *)
Theorem class_history_good : forall t0 t, good t0 -> history t0 t -> good t.
Proof. intros t0 t G H. induction H; auto. eapply good_defines; eauto. Qed.
End CPL.
(** <top> is 1, <object> is 2, a built-in class 3 under <top>; 4, 5 are defined *)
Definition builtin : table := [(3, [3; 1]); (2, [2; 1]); (1, [1])].
Example C16_ex_good : good 2 1 builtin.
Proof.
  split; [repeat constructor; cbn; intuition lia|]. split; [cbn; auto|]. split; [reflexivity|].
  intros c l [H|[H|[H|[]]]]; injection H as <- <-; (split; [discriminate|]); (split; [eauto|]); (split; [repeat constructor; cbn; intuition lia|]); intros d Hd; cbn in Hd; destruct Hd as [<-|Hd]; try (destruct Hd as [<-|Hd]); try destruct Hd; (split; [cbn; auto|]); cbn; repeat constructor.
Qed.
Example C16_ex_history : history 2 1 builtin [(5, [5; 4; 3; 2; 1]); (4, [4; 3; 2; 1]); (3, [3; 1]); (2, [2; 1]); (1, [1])].
Proof.
  eapply h_define with (c := 5) (supers := [4; 3]). eapply h_define with (c := 4) (supers := [3]). apply h_start.
  all: constructor; [cbn; intuition lia|discriminate|cbn; intuition lia|reflexivity].
Qed.
Example C16_ex_inconsistent : compute_cpl 2 1 [2; 1] (cpl_of [(5, [5; 4; 3; 2; 1]); (4, [4; 3; 2; 1]); (3, [3; 1]); (2, [2; 1]); (1, [1])]) 6 [3; 4] = Err.
Proof. reflexivity. Qed.

Print Assumptions monotonic_merge_sound.
Print Assumptions monotonic_merge_decides.
Print Assumptions monotonic_merge_prefers_first.
Print Assumptions monotonic_merge_false_element_refuted.
Print Assumptions monotonic_merge_dotted.
Print Assumptions compute_cpl_sound.
Print Assumptions compute_cpl_decides.
Print Assumptions class_history_good.
