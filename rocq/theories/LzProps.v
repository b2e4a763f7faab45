(** C55  Lazy sequences under every schedule. *)
From Coq Require Import List Bool Arith Lia.
From Verif Require Import LzModel LzSpec LzProofs.
Import ListNotations.

Lemma init_inv v0 : inv v0 (init v0) [].
Proof.
  split; cbn; auto.
  - intros i LT. assert (i = 0) as -> by lia. unfold cell, last_; cbn. split; auto. split; auto. split; auto.
    intros (t & i & []).
  - intros t i v [].
  - intros t. constructor.
Qed.
Lemma exec_inv v0 s h : exec v0 s h -> inv v0 s h.
Proof. induction 1; [apply init_inv|eapply step_inv; eauto]. Qed.
Lemma step_one s t e s' : step s t e s' -> e = [] \/ exists x, e = [x].
Proof. destruct 1; eauto. Qed.
(** every event is made by a step from a reachable state *)
Lemma exec_split v0 s h : exec v0 s h -> forall h1 x h2, h = h1 ++ x :: h2 ->
  exists s1 t s2, exec v0 s1 h1 /\ step s1 t [x] s2.
Proof.
  induction 1 as [|s h t e s' E IH ST]; intros h1 x h2 EQ.
  - destruct h1; discriminate.
  - destruct (step_one _ _ _ _ ST) as [->|(y & ->)].
    + rewrite app_nil_r in EQ. eauto.
    + destruct h2 as [|z h2 _] using rev_ind.
      * apply app_inj_tail in EQ. destruct EQ as (-> & ->). eauto.
      * rewrite app_comm_cons, app_assoc in EQ. apply app_inj_tail in EQ. destruct EQ as (EQ & _). eauto.
Qed.
Lemma running_stk v0 s h t i : inv v0 s h -> In i (map fst (stk s t)) -> running h = Some (t, i).
Proof.
  intros I J. apply in_map_iff in J. destruct J as ((j & v) & E & J). cbn in E. subst j.
  destruct (i_stk _ _ _ I _ _ _ J) as (O & _). pose proof (i_run _ _ _ I) as R. destruct (running h) as [(u & j)|].
  - apply in_map_iff in R. destruct R as ((j' & w) & E & R). cbn in E. subst j'.
    destruct (i_stk _ _ _ I _ _ _ R) as (O' & _). unfold owned, last_ in *. 
    destruct O as (_ & O & _ & O2 & _), O' as (_ & O' & _ & O3 & _). assert (j = i) as -> by lia. congruence.
  - rewrite R in J. destruct J.
Qed.
(** The generator is called by one thread at a time, for the last pair, and not after it has returned EOF. *)
Theorem lazy_generator_alone v0 s h1 t i h2 : exec v0 s (h1 ++ EStart t i :: h2) ->
  running h1 = None /\ S i = length (items v0 h1) /\ ~ ended h1.
Proof.
  intro E. destruct (exec_split _ _ _ E _ _ _ eq_refl) as (s1 & u & s2 & E1 & ST). apply exec_inv in E1.
  inversion ST; subst. match goal with X : th s1 t = _ |- _ => rename X into TH end.
  pose proof (i_th _ _ _ E1 t) as P. rewrite TH in P. destruct P as ((A & B & C & D & D') & _).
  rewrite <- (i_n _ _ _ E1). split; auto. pose proof (i_run _ _ _ E1) as R. destruct (running h1) as [(u & j)|]; auto. exfalso.
  pose proof R as R0. apply in_map_iff in R. destruct R as ((j' & w) & Q & R). cbn in Q. subst j'.
  destruct (i_stk _ _ _ E1 _ _ _ R) as ((A' & B' & C' & D1 & D2) & _). assert (j = i) as -> by lia.
  assert (u = t) as -> by congruence. pose proof (i_nd _ _ _ E1 t) as ND. unfold works in ND. rewrite TH in ND. cbn in ND.
  inversion ND. contradiction.
Qed.
Theorem lazy_generator_ends v0 s h1 t i r h2 : exec v0 s (h1 ++ EGen t i r :: h2) ->
  running h1 = Some (t, i) /\ S i = length (items v0 h1) /\ ~ ended h1.
Proof.
  intro E. destruct (exec_split _ _ _ E _ _ _ eq_refl) as (s1 & u & s2 & E1 & ST). apply exec_inv in E1.
  assert (J : exists v, In (i, v) (stk s1 t)).
  { inversion ST; subst; match goal with X : stk s1 t = _ |- _ => rewrite X end; eexists; left; reflexivity. }
  destruct J as (v & J). split; [|destruct (i_stk _ _ _ E1 _ _ _ J) as ((_ & _ & _ & O) & _); rewrite <- (i_n _ _ _ E1); exact O].
  apply (running_stk v0 s1); auto. apply in_map_iff. exists (i, v). auto.
Qed.
(** The error of recursive forcing is raised only in a call of the generator for that pair. *)
Theorem lazy_recursion v0 s h1 t i h2 : exec v0 s (h1 ++ ERaise t i :: h2) -> running h1 = Some (t, i).
Proof.
  intro E. destruct (exec_split _ _ _ E _ _ _ eq_refl) as (s1 & u & s2 & E1 & ST). apply exec_inv in E1.
  inversion ST; subst. match goal with X : th s1 t = _, Y : own s1 i = _ |- _ => rename X into TH; rename Y into OW end.
  pose proof (i_th _ _ _ E1 t) as P. rewrite TH in P. destruct P as (A & _).
  pose proof (i_cell _ _ _ E1 i A) as C. unfold cell in C. rewrite OW in C. destruct C as (_ & C). unfold works in C.
  rewrite TH in C. apply (running_stk v0 s1); auto.
Qed.
Lemma items_mono v0 h1 h2 i v : nth_error (items v0 h1) i = Some v -> nth_error (items v0 (h1 ++ h2)) i = Some v.
Proof.
  intro E. rewrite items_app. rewrite nth_error_app1; auto. apply nth_error_Some. congruence.
Qed.
Lemma el_item v0 h i w : i < length (items v0 h) -> w = el v0 h i -> exists v, nth_error (items v0 h) i = Some v /\ w = WItem v.
Proof. intros LT ->. exists (nth i (items v0 h) 0). split; [now apply nth_error_nth'|reflexivity]. Qed.
Lemma car_at v0 s h i w : inv v0 s h -> i < n s -> tag s i = Some w -> own s i = Desc /\ w = el v0 h i.
Proof.
  intros I LT T. pose proof (i_cell _ _ _ I i LT) as C. unfold cell in C. destruct (own s i).
  - destruct C; congruence.
  - destruct C; congruence.
  - split; auto. destruct C as ([C|(C & _)] & _); congruence.
Qed.
(** What is read as the car of pair i is item i (or, after errors, the lazy pair tag); *)
Theorem lazy_car_partial v0 s h t i w : exec v0 s h -> In (ECar t i (Some w)) h ->
  exists v, nth_error (items v0 h) i = Some v /\ w = WItem v.
Proof.
  intros E J. apply in_split in J. destruct J as (h1 & h2 & ->).
  destruct (exec_split _ _ _ E _ _ _ eq_refl) as (s1 & u & s2 & E1 & ST). apply exec_inv in E1.
  inversion ST; subst. match goal with X : th s2 t = _, Y : tag s2 i = _ |- _ => rename X into TH; rename Y into TG end.
  pose proof (i_th _ _ _ E1 t) as P. rewrite TH in P. destruct P as (A & _). 
  destruct (car_at _ _ _ _ _ E1 A TG) as (_ & Q). rewrite (i_n _ _ _ E1) in A.
  destruct (el_item _ _ _ _ A Q) as (v & N & W). exists v. split; auto. now apply items_mono.
Qed.
(** and it is item i when no generator run has ended in an error. *)
Theorem lazy_car v0 s h t i w : exec v0 s h -> noerr h -> In (ECar t i w) h ->
  exists v, nth_error (items v0 h) i = Some v /\ w = Some (WItem v).
Proof.
  intros E NE J. destruct w as [w|].
  - destruct (lazy_car_partial _ _ _ _ _ _ E J) as (v & N & ->). eauto.
  - exfalso. apply in_split in J. destruct J as (h1 & h2 & ->). apply noerr_app in NE.
    destruct (exec_split _ _ _ E _ _ _ eq_refl) as (s1 & u & s2 & E1 & ST). apply exec_inv in E1.
    inversion ST; subst. match goal with X : th s2 t = _, Y : tag s2 i = _ |- _ => rename X into TH; rename Y into TG end.
    pose proof (i_th _ _ _ E1 t) as P. rewrite TH in P. destruct P as (_ & P).  exact (P NE TG).
Qed.
Lemma no_gen_after v0 s h1 h2 : exec v0 s (h1 ++ h2) -> ended h1 -> quiet h2.
Proof.
  intros E ED t i r J. apply in_split in J. destruct J as (a & b & ->). rewrite app_assoc in E.
  destruct (lazy_generator_ends _ _ _ _ _ _ _ E) as (_ & _ & N). apply N. destruct ED as (t' & i' & ED). exists t', i'.
  apply in_or_app. auto.
Qed.
(** The cdr of pair i is pair i+1, or () when item i is the last one the generator gives. *)
Theorem lazy_cdr v0 s h t i w : exec v0 s h -> noerr h -> In (ECdr t i w) h ->
  (w = WNext (Some (S i)) /\ S i < length (items v0 h)) \/
  (w = WNext None /\ S i = length (items v0 h) /\ ended h).
Proof.
  intros E NE J. apply in_split in J. destruct J as (h1 & h2 & ->). apply noerr_app in NE.
  destruct (exec_split _ _ _ E _ _ _ eq_refl) as (s1 & u & s2 & E1 & ST). apply exec_inv in E1.
  inversion ST; subst. match goal with X : th s2 t = _ |- _ => rename X into TH end.
  pose proof (i_th _ _ _ E1 t) as P. rewrite TH in P. destruct P as (A & P). specialize (P NE).
  destruct (tag s2 i) as [w|] eqn:TG; [|congruence]. destruct (car_at _ _ _ _ _ E1 A TG) as (OW & _).
  pose proof (i_cell _ _ _ E1 i A) as C. unfold cell in C. rewrite OW in C. destruct C as (_ & nx & W2 & O). rewrite W2 in *.
  destruct O as [(-> & O)|(-> & O & ED)].
  - left. split; auto. rewrite items_app, app_length, <- (i_n _ _ _ E1). lia.
  - right. split; auto. rewrite (quiet_items v0 h1), <- (i_n _ _ _ E1) by (eapply no_gen_after; eauto).
    split; auto. destruct ED as (t' & i' & ED). exists t', i'. apply in_or_app. auto.
Qed.
(** After EOF the items stay as they are. *)
Theorem lazy_eof v0 s h1 h2 : exec v0 s (h1 ++ h2) -> ended h1 -> items v0 (h1 ++ h2) = items v0 h1.
Proof. intros E ED. apply quiet_items. eapply no_gen_after; eauto. Qed.
(** A thread that waits for another one to force a pair waits for a generator call, or for a thread
    that can go on by itself. *)
Theorem lazy_waits v0 s h t i : exec v0 s h -> th s t = B3 i -> own s i <> Free -> tag s i = None -> own s i <> Own t ->
  exists u, u <> t /\ (running h = Some (u, i) \/ (th s u <> Idle /\ (exists s', step s u [] s') \/ exists v, th s u = A2 i v)).
Proof.
  intros E TH NF TN NO. apply exec_inv in E. pose proof (i_th _ _ _ E t) as P. rewrite TH in P. destruct P as (A & _).
  pose proof (i_cell _ _ _ E i A) as C. unfold cell in C. destruct (own s i) as [|u|] eqn:OW; [congruence| |].
  - exists u. split; [congruence|]. destruct C as (_ & C). unfold works in C. apply in_app_or in C. destruct C as [C|C].
    + right. destruct (th s u) eqn:TU; cbn in C; try contradiction; destruct C as [->|[]];
        try (right; eexists; reflexivity); left; (split; [discriminate|]); eexists.
      * eapply S_A1; eauto.
      * eapply S_A3; eauto.
      * eapply S_A4; eauto.
      * eapply S_AE; eauto.
    + left. apply (running_stk v0 s); auto.
  - destruct C as ([C|(_ & u & C)] & _); [congruence|]. exists u. split; [congruence|]. right. left. split; [congruence|].
    eexists. eapply S_A6; eauto.
Qed.

(** A thread that looks at a pair nobody is forcing goes on until it forces it itself: it neither fails nor
    takes it for a pair. *)
Definition looking i (x : pc) : Prop := x = S0 i \/ x = A0 i \/ x = B1 i \/ x = B2 i \/ x = B3 i \/ x = B4 i.
Theorem lazy_abandoned v0 s h t i e s' : exec v0 s h -> own s i = Free -> looking i (th s t) -> step s t e s' ->
  e = [] /\ ((own s' i = Free /\ looking i (th s' t)) \/ (own s' i = Own t /\ th s' t = A1 i)).
Proof.
  intros E F L ST. apply exec_inv in E. pose proof (i_th _ _ _ E t) as P.
  assert (LT : i < n s).
  { destruct L as [L|[L|[L|[L|[L|L]]]]]; rewrite L in P; apply P. }
  pose proof (i_cell _ _ _ E i LT) as C. unfold cell in C. rewrite F in C. destruct C as (TN & _).
  inversion ST; subst; match goal with X : th _ t = _ |- _ => rewrite X in L end; unfold looking in L; decompose [or] L; try discriminate;
    match goal with X : _ = _ i |- _ => inversion X; subst end; try congruence; (split; [reflexivity|]); cbn; rewrite ?upd_same;
    try (left; split; [exact F|unfold looking; tauto]).
  right. auto.
Qed.

(** A thread may take a lazy pair for a pair when the thread it waits for fails and a third one tries again:
    its car is then the lazy pair tag. *)
Lemma snoc v0 s h t e s' h' : exec v0 s h -> step s t e s' -> h ++ e = h' -> exec v0 s' h'.
Proof. intros E ST <-. econstructor; eauto. Qed.
Local Ltac nx E w r := eapply snoc with (t := w) in E; [|eapply r; cbn; try reflexivity; try discriminate; try lia; auto|reflexivity]; cbv in E.
Local Ltac nl E w j := eapply snoc with (t := w) in E; [|eapply S_look with (i := j); cbn; try reflexivity; try lia; auto|reflexivity]; cbv in E.
Theorem lazy_car_refuted : exists s, exec 7 s [EStart 0 0; EGen 0 0 Err; ECar 1 0 None].
Proof.
  assert (E := E_init 7). cbv in E.
  nl E 0 0. nx E 0 S_S0_lazy. nx E 0 S_A0. nx E 0 S_A1. nx E 0 S_A2.
  nl E 1 0. nx E 1 S_S0_lazy. nx E 1 S_A0_no. nx E 1 S_B1. nx E 1 S_B2_lazy.
  nx E 0 S_err. nx E 0 S_AE. nx E 1 S_B3. nl E 2 0. nx E 2 S_S0_lazy. nx E 2 S_A0.
  nx E 1 S_B4. nx E 1 S_car. eexists. exact E.
Qed.
(** Two threads on a sequence of two items: the second waits; both see the items. *)
Example lazy_two : exists s, exec 7 s
  [EStart 0 0; EGen 0 0 (Val 8); ECar 1 0 (Some (WItem 7)); ECdr 1 0 (WNext (Some 1)); EStart 1 1; EGen 1 1 Eof;
   ECar 0 1 (Some (WItem 8)); ECdr 0 1 (WNext None)].
Proof.
  assert (E := E_init 7). cbv in E.
  nl E 0 0. nx E 0 S_S0_lazy. nx E 0 S_A0. nx E 0 S_A1. nx E 0 S_A2.
  nl E 1 0. nx E 1 S_S0_lazy. nx E 1 S_A0_no. nx E 1 S_B1. nx E 1 S_B2_lazy. nx E 1 S_B3_wait.
  nx E 0 S_val. nx E 0 S_A3. nx E 0 S_A4. nx E 0 S_A6. nx E 1 S_B2. nx E 1 S_B4. nx E 1 S_car. nx E 1 S_cdr. nx E 1 S_leave.
  nl E 1 1. nx E 1 S_S0_lazy. nx E 1 S_A0. nx E 1 S_A1. nx E 1 S_A2. nx E 1 S_eof. nx E 1 S_A3. nx E 1 S_A4. nx E 1 S_A6.
  nx E 0 S_leave. nl E 0 1. nx E 0 S_S0_pair. nx E 0 S_car. nx E 0 S_cdr. eexists. exact E.
Qed.
(** A failed pair is forced again; a generator that looks at its own pair fails. *)
Example lazy_again : exists s, exec 7 s
  [EStart 0 0; ERaise 0 0; EGen 0 0 Err; EStart 1 0; EGen 1 0 (Val 8); ECar 1 0 (Some (WItem 7))].
Proof.
  assert (E := E_init 7). cbv in E.
  nl E 0 0. nx E 0 S_S0_lazy. nx E 0 S_A0. nx E 0 S_A1. nx E 0 S_A2.
  nl E 0 0. nx E 0 S_S0_lazy. nx E 0 S_A0_no. nx E 0 S_B1_self. nx E 0 S_err. nx E 0 S_AE.
  nl E 1 0. nx E 1 S_S0_lazy. nx E 1 S_A0. nx E 1 S_A1. nx E 1 S_A2. nx E 1 S_val. nx E 1 S_A3. nx E 1 S_A4. nx E 1 S_A6.
  nx E 1 S_car. eexists. exact E.
Qed.
Example lazy_noerr : noerr [EStart 0 0; EGen 0 0 (Val 8); ECar 1 0 (Some (WItem 7)); ECdr 1 0 (WNext (Some 1))] /\
  ended [EStart 1 1; EGen 1 1 Eof].
Proof. split; [intros t i J; cbn in J; decompose [or] J; auto; discriminate|exists 1, 1; cbn; auto]. Qed.
Example lazy_wait : exists s, exec 7 s [EStart 0 0] /\ th s 1 = B3 0 /\ own s 0 = Own 0 /\ tag s 0 = None.
Proof.
  assert (E := E_init 7). cbv in E.
  nl E 0 0. nx E 0 S_S0_lazy. nx E 0 S_A0. nx E 0 S_A1. nx E 0 S_A2.
  nl E 1 0. nx E 1 S_S0_lazy. nx E 1 S_A0_no. nx E 1 S_B1. nx E 1 S_B2_lazy. eexists. split; [exact E|]. cbn. auto.
Qed.

Print Assumptions lazy_generator_alone.
Print Assumptions lazy_generator_ends.
Print Assumptions lazy_recursion.
Print Assumptions lazy_car_partial.
Print Assumptions lazy_car.
Print Assumptions lazy_cdr.
Print Assumptions lazy_eof.
Print Assumptions lazy_waits.
Print Assumptions lazy_abandoned.
Print Assumptions lazy_car_refuted.
