From Coq Require Import List Bool ZArith Lia PeanoNat Permutation.
From Verif Require Import Outcome QueueModel QueueSpec.
Import ListNotations.
Local Open Scope Z_scope.
Ltac Zify.zify_post_hook ::= idtac.

Section P.
Context {V : Type} (nilv : V) (is_marker : V -> bool).
Notation heap := (heap V).
Inductive chain (h : heap) : ptr -> ptr -> list V -> list nat -> Prop :=
| ch_nil e : chain h e e [] []
| ch_cons l v p e vs ls : cells h l = Some (v, p) -> chain h p e vs ls -> chain h (Pt l) e (v :: vs) (l :: ls).
Definition below (h : heap) (ls : list nat) : Prop := Forall (fun l => (l < next h)%nat) ls.
(** unused locations are free *)
Definition wf (h : heap) : Prop := forall l, (next h <= l)%nat -> cells h l = None.
Definition lastl (ls : list nat) : ptr := match rev ls with [] => Nil | l :: _ => Pt l end.
Definition rep (h : heap) (q : queue) (vs : list V) : Prop :=
  wf h /\ exists ls, chain h (head q) Nil vs ls /\ NoDup ls /\ below h ls /\ (vs <> [] -> tail q = lastl ls)
    /\ (len q = -1 \/ len q = Z.of_nat (List.length vs)).

Lemma chain_below h p e vs ls : wf h -> chain h p e vs ls -> below h ls.
Proof. intros W. induction 1; constructor; auto. destruct (Nat.lt_ge_cases l (next h)) as [|G]; [assumption|]. rewrite (W l G) in H. discriminate. Qed.
Lemma chain_len h p e vs ls : chain h p e vs ls -> List.length vs = List.length ls.
Proof. induction 1; cbn; congruence. Qed.
Lemma chain_app h p m e vs ws ls ks : chain h p m vs ls -> chain h m e ws ks -> chain h p e (vs ++ ws) (ls ++ ks).
Proof. induction 1; cbn [app]; intros; [assumption|]. econstructor; eauto. Qed.
Lemma chain_ext h h' p e vs ls : (forall l, In l ls -> cells h' l = cells h l) -> chain h p e vs ls -> chain h' p e vs ls.
Proof. intros H C. induction C; [constructor|]. econstructor; [rewrite H; [eassumption|now left]|]. apply IHC. intros; apply H; now right. Qed.
Lemma chain_head h p vs ls : chain h p Nil vs ls -> (vs = [] <-> p = Nil).
Proof. intros C; inversion C; subst; split; congruence. Qed.

Lemma alloc_spec vs : forall p h h' q, wf h -> alloc vs p h = (h', q) ->
  wf h' /\ (next h <= next h')%nat /\ (forall l, (l < next h)%nat -> cells h' l = cells h l) /\
  exists ls, chain h' q p vs ls /\ NoDup ls /\ Forall (fun l => (next h <= l < next h')%nat) ls.
Proof.
  induction vs as [|v r IH]; intros p h h' q W E; cbn [alloc] in E.
  - injection E as <- <-. split; [assumption|]. split; [lia|]. split; [auto|]. exists []. repeat constructor.
  - destruct (alloc r p h) as [h1 q1] eqn:E1. destruct (IH _ _ _ _ W E1) as (W1 & N1 & F1 & ls & C & ND & R).
    unfold cons_cell in E. injection E as <- <-. cbn [next cells].
    split; [intros l Hl; cbn [next] in Hl; cbn [cells]; destruct (Nat.eqb_spec l (next h1)); [lia|apply W1; lia]|].
    split; [lia|]. split.
    { intros l Hl. destruct (Nat.eqb_spec l (next h1)); [lia|auto]. }
    exists (next h1 :: ls). split; [|split].
    + econstructor; [cbn; now rewrite Nat.eqb_refl|]. eapply chain_ext; [|exact C].
      intros l Hl. rewrite Forall_forall in R. specialize (R l Hl). cbn. destruct (Nat.eqb_spec l (next h1)); [lia|reflexivity].
    + constructor; [|assumption]. intros Hi. rewrite Forall_forall in R. specialize (R _ Hi). lia.
    + constructor; [lia|]. eapply Forall_impl; [|exact R]. cbn; lia.
Qed.
Lemma last_pair_loop_spec fuel h p vs ls : chain h p Nil vs ls -> vs <> [] -> (List.length ls <= fuel)%nat -> last_pair_loop fuel h p = Ok (lastl ls).
Proof.
  intros C. revert fuel. remember Nil as e0 eqn:He. revert He. induction C as [|l v p e vs ls E C IH]; intros -> fuel N F; [congruence|]. destruct fuel; [cbn in F; lia|]. cbn [last_pair_loop cdr].
  rewrite E. cbn [bind]. inversion C; subst.
  - reflexivity.
  - rewrite IH; [|reflexivity|discriminate|cbn in F |- *; lia]. unfold lastl. cbn [rev]. destruct (rev ls0); reflexivity.
Qed.
Lemma NoDup_below_len n ls : NoDup ls -> Forall (fun l => (l < n)%nat) ls -> (List.length ls <= n)%nat.
Proof.
  intros N B. rewrite <- (seq_length n 0). apply NoDup_incl_length; [assumption|]. intros l Hl. unfold below in B; rewrite Forall_forall in B. specialize (B l Hl). apply in_seq. lia.
Qed.
Lemma last_pair_spec h p vs ls : wf h -> NoDup ls -> chain h p Nil vs ls -> last_pair h p = Ok (lastl ls).
Proof.
  intros W N C. pose proof (NoDup_below_len _ _ N (chain_below _ _ _ _ _ W C)).
  inversion C; subst; [reflexivity|]. cbn [last_pair]. eapply last_pair_loop_spec; [exact C|discriminate|assumption].
Qed.
Lemma elements_loop_spec fuel h p vs ls : chain h p Nil vs ls -> (List.length ls <= fuel)%nat -> elements_loop fuel h p = Ok vs.
Proof.
  intros C. revert fuel. remember Nil as e eqn:He. revert He. induction C as [e|l v p e vs ls E C IH]; intros -> fuel F.
  - destruct fuel; reflexivity.
  - destruct fuel; [cbn in F; lia|]. cbn [elements_loop car cdr]. rewrite E. cbn [bind]. rewrite IH; [reflexivity|reflexivity|cbn in F; lia].
Qed.
Lemma elements_spec h p vs ls : wf h -> NoDup ls -> chain h p Nil vs ls -> elements h p = Ok vs.
Proof. intros W N C. eapply elements_loop_spec; [exact C|]. apply NoDup_below_len; [assumption|]. eapply chain_below; eassumption. Qed.
Lemma rep_elements h q vs : rep h q vs -> elements h (head q) = Ok vs.
Proof. intros (W & ls & C & N & _). eapply elements_spec; eassumption. Qed.
Lemma rep_empty h q vs : rep h q vs -> empty_p q = match vs with [] => true | _ => false end.
Proof. intros (W & ls & C & _). unfold empty_p. destruct (head q); inversion C; subst; reflexivity. Qed.
Lemma lastl_snoc ls l : lastl (ls ++ [l]) = Pt l.
Proof. unfold lastl. now rewrite rev_unit. Qed.
Lemma lastl_app ls ks : ks <> [] -> lastl (ls ++ ks) = lastl ks.
Proof. intros H. unfold lastl. rewrite rev_app_distr. destruct (rev ks) eqn:E; [|reflexivity]. apply (f_equal (@rev nat)) in E. rewrite rev_involutive in E. subst. cbn in H. congruence. Qed.
(** the last cell of a chain *)
Lemma chain_split_last h p vs ls : chain h p Nil vs ls -> vs <> [] ->
  exists vs0 v ls0 l, vs = vs0 ++ [v] /\ ls = ls0 ++ [l] /\ chain h p (Pt l) vs0 ls0 /\ cells h l = Some (v, Nil).
Proof.
  remember Nil as e eqn:He. intros C. revert He. induction C as [|l v p e vs ls E C IH]; intros -> N; [congruence|].
  destruct vs as [|v' vs'].
  - inversion C; subst. exists [], v, [], l. repeat split; [constructor|assumption].
  - destruct IH as (vs0 & w & ls0 & k & -> & -> & C0 & E0); [reflexivity|discriminate|].
    exists (v :: vs0), w, (l :: ls0), k. repeat split; [|assumption]. econstructor; eassumption.
Qed.
Lemma write_wf h l c : wf h -> (l < next h)%nat -> wf (write h l c).
Proof. intros W L k Hk. cbn in *. destruct (Nat.eqb_spec k l); [lia|auto]. Qed.
Lemma set_last h p vs0 v ls0 l q ws ks : chain h p (Pt l) vs0 ls0 -> cells h l = Some (v, Nil) -> NoDup (ls0 ++ [l]) ->
  chain h q Nil ws ks -> ~ In l ks -> chain (write h l (v, q)) p Nil (vs0 ++ v :: ws) (ls0 ++ l :: ks).
Proof.
  intros C E N C2 D. eapply chain_app.
  - eapply chain_ext; [|exact C]. intros k Hk. cbn. destruct (Nat.eqb_spec k l) as [->|]; [|reflexivity].
    exfalso. apply NoDup_remove_2 in N. rewrite app_nil_r in N. contradiction.
  - econstructor; [cbn; now rewrite Nat.eqb_refl|]. eapply chain_ext; [|exact C2].
    intros k Hk. cbn. destruct (Nat.eqb_spec k l) as [->|]; [contradiction|reflexivity].
Qed.
Lemma disjoint_ranges (ls ks : list nat) n : Forall (fun l => (l < n)%nat) ls -> Forall (fun l => (n <= l)%nat) ks -> NoDup ls -> NoDup ks -> NoDup (ls ++ ks).
Proof.
  intros A B N M. induction ls as [|l r IH]; cbn [app]; [assumption|]. inversion A; subst. inversion N; subst. constructor; auto.
  intros Hi. apply in_app_or in Hi as [|Hi]; [contradiction|]. unfold below in B; rewrite Forall_forall in B. specialize (B _ Hi). lia.
Qed.
Lemma enqueue_rep h q vs new : rep h q vs -> new <> [] ->
  exists h1 hd tl h2 q2, alloc new Nil h = (h1, hd) /\ last_pair h1 hd = Ok tl /\
    enqueue_int h1 q (Z.of_nat (List.length new)) hd tl = Ok (h2, q2) /\ rep h2 q2 (vs ++ new).
Proof.
  intros R Hn. pose proof (rep_empty _ _ _ R) as HE. destruct R as (W & ls & C & N & B & T & L).
  destruct (alloc new Nil h) as [h1 hd] eqn:EA. destruct (alloc_spec _ _ _ _ _ W EA) as (W1 & N1 & F1 & ks & CK & NK & RK).
  pose proof (last_pair_spec _ _ _ _ W1 NK CK) as EL.
  assert (Hks : ks <> []) by (intros ->; inversion CK; congruence).
  unfold enqueue_int. rewrite HE.
  assert (LEN : forall n, (if 0 <=? len q then len q + Z.of_nat (List.length new) else len q) = n -> n = -1 \/ n = Z.of_nat (List.length (vs ++ new))).
  { intros n <-. rewrite app_length. destruct L as [->| ->]; [left; reflexivity|right]. rewrite (proj2 (Z.leb_le _ _)) by lia. lia. }
  destruct vs as [|v vs].
  - exists h1, hd, (lastl ks), h1. eexists. split; [reflexivity|]. split; [assumption|]. split; [reflexivity|].
    split; [assumption|]. exists ks. cbn [head tail len app]. split; [exact CK|]. split; [assumption|]. split; [eapply chain_below; eassumption|]. split; [reflexivity|]. now apply LEN.
  - specialize (T ltac:(discriminate)).
    assert (C1 : chain h1 (head q) Nil (v :: vs) ls) by (eapply chain_ext; [|exact C]; intros l Hl; apply F1; unfold below in B; rewrite Forall_forall in B; auto).
    destruct (chain_split_last _ _ _ _ C1 ltac:(discriminate)) as (vs0 & w & ls0 & l & Ev & El & C0 & Ec).
    exists h1, hd, (lastl ks), (write h1 l (w, hd)). eexists. split; [reflexivity|]. split; [assumption|]. split.
    { rewrite T, El, lastl_snoc. cbn [set_cdr]. rewrite Ec. reflexivity. }
    assert (Hl : (l < next h)%nat) by (unfold below in B; rewrite Forall_forall in B; apply B; rewrite El; apply in_or_app; right; now left).
    split; [apply write_wf; [assumption|lia]|]. exists (ls ++ ks). cbn [head tail len].
    assert (ND : NoDup (ls ++ ks)).
    { apply (disjoint_ranges ls ks (next h)); try assumption. eapply Forall_impl; [|exact RK]. cbn; lia. }
    split; [|split; [|split; [|split]]].
    + rewrite Ev, El, <- !app_assoc. cbn [app]. eapply set_last; [exact C0|exact Ec|congruence|exact CK|].
      intros Hi. rewrite Forall_forall in RK. specialize (RK _ Hi). lia.
    + assumption.
    + apply Forall_app. split; [eapply Forall_impl; [|exact B]; cbn; lia|]. eapply Forall_impl; [|exact RK]. cbn; lia.
    + intros _. now rewrite lastl_app.
    + now apply LEN.
Qed.
Lemma push_rep h q vs new : rep h q vs -> new <> [] ->
  exists h1 hd tl h2 q2, alloc new Nil h = (h1, hd) /\ last_pair h1 hd = Ok tl /\
    queue_push_int h1 q (Z.of_nat (List.length new)) hd tl = Ok (h2, q2) /\ rep h2 q2 (new ++ vs).
Proof.
  intros (W & ls & C & N & B & T & L) Hn.
  destruct (alloc new Nil h) as [h1 hd] eqn:EA. destruct (alloc_spec _ _ _ _ _ W EA) as (W1 & N1 & F1 & ks & CK & NK & RK).
  pose proof (last_pair_spec _ _ _ _ W1 NK CK) as EL.
  destruct (chain_split_last _ _ _ _ CK Hn) as (vs0 & w & ls0 & l & Ev & El & C0 & Ec).
  assert (C1 : chain h1 (head q) Nil vs ls) by (eapply chain_ext; [|exact C]; intros k Hk; apply F1; unfold below in B; rewrite Forall_forall in B; auto).
  assert (Hl : (next h <= l < next h1)%nat) by (rewrite Forall_forall in RK; apply RK; rewrite El; apply in_or_app; right; now left).
  assert (Dl : ~ In l ls) by (intros Hi; unfold below in B; rewrite Forall_forall in B; specialize (B _ Hi); cbn in B; lia).
  assert (C2 : chain (write h1 l (w, head q)) hd Nil (new ++ vs) (ks ++ ls)).
  { rewrite Ev, El, <- !app_assoc. cbn [app]. eapply set_last; [exact C0|exact Ec|congruence|exact C1|exact Dl]. }
  assert (W2 : wf (write h1 l (w, head q))) by (apply write_wf; [assumption|lia]).
  assert (ND : NoDup (ks ++ ls)).
  { apply (Permutation.Permutation_NoDup (Permutation.Permutation_app_comm ls ks)). apply (disjoint_ranges ls ks (next h)); try assumption.
    eapply Forall_impl; [|exact RK]. cbn; lia. }
  assert (CL : chain (write h1 l (w, head q)) (Pt l) Nil (w :: vs) (l :: ls)).
  { econstructor; [cbn; now rewrite Nat.eqb_refl|]. eapply chain_ext; [|exact C1]. intros k Hk. cbn. destruct (Nat.eqb_spec k l) as [->|]; [contradiction|reflexivity]. }
  exists h1, hd, (Pt l), (write h1 l (w, head q)). eexists. split; [reflexivity|]. split; [rewrite EL, El, lastl_snoc; reflexivity|]. split.
  { unfold queue_push_int. cbn [set_cdr]. rewrite Ec. cbn [bind].
    erewrite last_pair_spec; [cbn [bind]; reflexivity|assumption| |exact CL]. constructor; assumption. }
  split; [assumption|]. exists (ks ++ ls). cbn [head tail len]. split; [exact C2|]. split; [assumption|]. split; [eapply chain_below; eassumption|]. split.
  - intros _. rewrite El, <- app_assoc. cbn [app]. rewrite lastl_app by discriminate. reflexivity.
  - rewrite app_length. destruct L as [->| ->]; [left; reflexivity|right]. rewrite (proj2 (Z.leb_le _ _)) by lia. lia.
Qed.
Lemma set_content_rep h q p vs ls : wf h -> chain h p Nil vs ls -> NoDup ls -> exists q2, set_content h q p = Ok q2 /\ rep h q2 vs.
Proof.
  intros W C N. pose proof (last_pair_spec _ _ _ _ W N C) as EL. pose proof (chain_below _ _ _ _ _ W C) as B.
  destruct p as [|l].
  - inversion C; subst. eexists. split; [reflexivity|]. split; [assumption|]. exists []. cbn [head tail len]. split; [constructor|]. split; [constructor|]. split; [constructor|]. split; [congruence|now right].
  - cbn [set_content]. rewrite EL. cbn [bind]. eexists. split; [reflexivity|]. split; [assumption|]. exists ls. cbn [head tail len]. repeat split; auto.
Qed.
Lemma alloc_set_rep h q vs : wf h -> exists h1 p q2, alloc vs Nil h = (h1, p) /\ set_content h1 q p = Ok q2 /\ rep h1 q2 vs.
Proof.
  intros W. destruct (alloc vs Nil h) as [h1 p] eqn:EA. destruct (alloc_spec _ _ _ _ _ W EA) as (W1 & N1 & F1 & ks & CK & NK & RK).
  destruct (set_content_rep h1 q p vs ks W1 CK NK) as (q2 & E & R). eauto 6.
Qed.
Lemma push_unique_rep h q vs new : rep h q vs -> new <> [] ->
  exists h1 p q2, alloc new (head q) h = (h1, p) /\ set_content h1 q p = Ok q2 /\ rep h1 q2 (new ++ vs).
Proof.
  intros (W & ls & C & N & B & T & L) Hn.
  destruct (alloc new (head q) h) as [h1 p] eqn:EA. destruct (alloc_spec _ _ _ _ _ W EA) as (W1 & N1 & F1 & ks & CK & NK & RK).
  assert (C1 : chain h1 (head q) Nil vs ls) by (eapply chain_ext; [|exact C]; intros k Hk; apply F1; unfold below in B; rewrite Forall_forall in B; auto).
  destruct (set_content_rep h1 q p (new ++ vs) (ks ++ ls) W1) as (q2 & E & R).
  - eapply chain_app; eassumption.
  - apply (Permutation.Permutation_NoDup (Permutation.Permutation_app_comm ls ks)). apply (disjoint_ranges ls ks (next h)); try assumption.
    eapply Forall_impl; [|exact RK]. cbn; lia.
  - eauto 6.
Qed.
(** dequeue with the markers in front *)
Fixpoint drop_markers (vs : list V) : list V := match vs with v :: r => if is_marker v then drop_markers r else vs | [] => [] end.
Lemma tail_step h q v vs ls l p : chain h p Nil vs ls -> ~ In l ls -> NoDup ls -> wf h -> (l < next h)%nat ->
  (vs <> [] -> tail q = lastl ls) -> (len q = -1 \/ len q = Z.of_nat (List.length (v :: vs))) ->
  rep (write h l (nilv, Nil)) {| len := if 0 <=? len q then len q - 1 else len q; head := p; tail := tail q |} vs.
Proof.
  intros C D N W L T Hl. split; [now apply write_wf|]. exists ls. cbn [head tail len]. split; [|split; [|split; [|split]]]; auto.
  - eapply chain_ext; [|exact C]. intros k Hk. cbn. destruct (Nat.eqb_spec k l) as [->|]; [contradiction|reflexivity].
  - exact (chain_below _ _ _ _ _ W C).
  - destruct Hl as [->| ->]; [now left|right]. cbn [List.length]. rewrite (proj2 (Z.leb_le _ _)) by lia. lia.
Qed.
Lemma dequeue_loop_rep fuel h q vs : rep h q vs -> (List.length vs < fuel)%nat ->
  exists h2 q2, dequeue_int_loop nilv is_marker fuel h q = Ok (h2, q2, hd_error (drop_markers vs)) /\ rep h2 q2 (tl (drop_markers vs)).
Proof.
  revert h q vs. induction fuel as [|f IH]; intros h q vs R F; [lia|]. cbn [dequeue_int_loop].
  pose proof R as (W & ls & C & N & B & T & L). destruct (head q) as [|l] eqn:HQ; inversion C as [|? v p ? vs' ls' Ec C']; subst.
  - cbn. eauto.
  - cbn [car cdr]. rewrite Ec. cbn [bind]. inversion N; subst. inversion B; subst.
    pose proof (tail_step h q v vs' ls' l p C' H1 H2 W H3) as TS.
    assert (R' : rep (write h l (nilv, Nil)) {| len := if 0 <=? len q then len q - 1 else len q; head := p; tail := tail q |} vs').
    { apply TS; [|assumption]. intros Hv. rewrite T by discriminate. change (l :: ls') with ([l] ++ ls'). apply lastl_app. intros ->. inversion C'; subst; congruence. }
    destruct (is_marker v) eqn:M; cbn [drop_markers]; rewrite M.
    + apply IH; [assumption|cbn in F; lia].
    + cbn [hd_error tl]. eauto.
Qed.
Lemma rep_len h q vs : rep h q vs -> (List.length vs <= next h)%nat.
Proof. intros (W & ls & C & N & B & _). rewrite (chain_len _ _ _ _ _ C). now apply NoDup_below_len. Qed.
Lemma dequeue_rep h q vs : rep h q vs ->
  exists h2 q2, dequeue_int nilv is_marker h q = Ok (h2, q2, hd_error (drop_markers vs)) /\ rep h2 q2 (tl (drop_markers vs)).
Proof. intros R. apply dequeue_loop_rep; [assumption|]. apply rep_len in R. lia. Qed.
Lemma dequeue_all_rep h q vs : rep h q vs -> (forall v, In v vs -> is_marker v = false) ->
  exists q2, dequeue_all_int is_marker h q = Ok (q2, vs) /\ rep h q2 [].
Proof.
  intros R M. assert (E0 : rep h {| len := 0; head := Nil; tail := Nil |} []).
  { destruct R as [W _]. split; [assumption|]. exists []. cbn [head tail len]. split; [constructor|]. split; [constructor|]. split; [constructor|]. split; [congruence|now right]. }
  pose proof (rep_elements _ _ _ R) as EE. destruct R as (W & ls & C & N & B & T & L). unfold dequeue_all_int.
  destruct (head q) as [|l] eqn:HQ; inversion C as [|? v p ? vs' ls' Ec C']; subst.
  - exists {| len := 0; head := Nil; tail := Nil |}. split; [reflexivity|assumption].
  - rewrite (last_pair_spec _ _ _ _ W N C). cbn [bind].
    destruct (chain_split_last _ _ _ _ C ltac:(discriminate)) as (vs0 & w & ls0 & k & Ev & El & C0 & Ek).
    rewrite El, lastl_snoc. cbn [car]. rewrite Ek. cbn [bind]. rewrite EE. cbn [bind].
    rewrite (M w) by (rewrite Ev; apply in_or_app; right; now left). eauto.
Qed.
Lemma qlength_rep h q vs : rep h q vs -> exists q2, qlength h q = Ok (q2, Z.of_nat (List.length vs)) /\ rep h q2 vs.
Proof.
  intros R. pose proof (rep_elements _ _ _ R) as EE. unfold qlength. destruct (Z.ltb_spec (len q) 0).
  - rewrite EE. cbn [bind]. eexists. split; [reflexivity|]. destruct R as (W & ls & C & N & B & T & L). split; [assumption|]. exists ls. cbn [head tail len]. repeat split; auto.
  - exists q. split; [|assumption]. destruct R as (W & ls & C & N & B & T & L). destruct L as [L| ->]; [lia|reflexivity].
Qed.
Lemma front_rep h q v vs : rep h q (v :: vs) -> car h (head q) = Ok v.
Proof. intros (W & ls & C & _). destruct (head q) eqn:HQ; inversion C as [|? ? ? ? ? ? Ec]; subst. cbn [car]. now rewrite Ec. Qed.
Lemma rear_rep h q vs v : rep h q (vs ++ [v]) -> car h (tail q) = Ok v.
Proof.
  intros (W & ls & C & N & B & T & L). rewrite T by (destruct vs; discriminate).
  destruct (chain_split_last _ _ _ _ C) as (vs0 & w & ls0 & k & Ev & El & C0 & Ek); [destruct vs; discriminate|].
  apply app_inj_tail in Ev as [-> ->]. rewrite El, lastl_snoc. cbn [car]. now rewrite Ek.
Qed.
End P.
