(** Invariants of lazy pairs. *)
From Coq Require Import List Bool Arith Lia.
From Verif Require Import LzModel LzSpec.
Import ListNotations.

Section P.
Variable v0 : nat.
Definition el h i : word := WItem (nth i (items v0 h) 0).
Definition last_ s h i : Prop := S i = n s /\ ~ ended h.
Definition okn s h i (nx : option nat) : Prop := (nx = Some (S i) /\ S i < n s) \/ (nx = None /\ S i = n s /\ ended h).
(** the pair that t is forcing, by its program counter *)
Definition work (x : pc) : list nat :=
  match x with A1 i | A2 i _ | A3 i _ _ | A4 i _ _ | AE i => [i] | _ => [] end.
Definition works s t : list nat := work (th s t) ++ map fst (stk s t).
Definition cell s h i : Prop :=
  match own s i with
  | Free => tag s i = None /\ w2 s i = el h i /\ last_ s h i
  | Own t => tag s i = None /\ In i (works s t)
  | Desc => (tag s i = Some (el h i) \/ (tag s i = None /\ exists t, th s t = A6 i (el h i))) /\
            exists nx, w2 s i = WNext nx /\ okn s h i nx
  end.
Definition owned s h t i : Prop := i < n s /\ own s i = Own t /\ w2 s i = el h i /\ last_ s h i.
Definition told s h i : Prop := i < n s /\ (noerr h -> tag s i <> None).
Definition PT s h t (x : pc) : Prop :=
  match x with
  | Idle => True
  | S0 i | A0 i => i < n s
  | A1 i => owned s h t i
  | AE i => owned s h t i /\ ~ noerr h
  | A2 i v => owned s h t i /\ v = el h i
  | A3 i v nx => i < n s /\ own s i = Own t /\ v = el h i /\ okn s h i nx
  | A4 i v nx => i < n s /\ own s i = Own t /\ v = el h i /\ okn s h i nx /\ w2 s i = WNext nx
  | A6 i v => i < n s /\ own s i = Desc /\ v = el h i
  | B1 i | B2 i | B3 i => i < n s /\ (noerr h -> own s i <> Free)
  | B4 i | R i => told s h i
  end.
Record inv s h : Prop := {
  i_n : n s = length (items v0 h);
  i_cell : forall i, i < n s -> cell s h i;
  i_th : forall t, PT s h t (th s t);
  i_stk : forall t i v, In (i, v) (stk s t) -> owned s h t i /\ v = el h i;
  i_nd : forall t, NoDup (works s t);
  i_run : match running h with Some (t, i) => In i (map fst (stk s t)) | None => forall t, stk s t = [] end
}.
Lemma upd_same {A} (f : nat -> A) i v : upd f i v i = v.
Proof. unfold upd. now rewrite Nat.eqb_refl. Qed.
Lemma upd_other {A} (f : nat -> A) i v j : j <> i -> upd f i v j = f j.
Proof. unfold upd. destruct (Nat.eqb_spec j i); congruence. Qed.
Lemma upd_case {A} (f : nat -> A) i v j : (j = i /\ upd f i v j = v) \/ (j <> i /\ upd f i v j = f j).
Proof. unfold upd. destruct (Nat.eqb_spec j i); auto. Qed.
(** events other than the ends of generator runs *)
Lemma items_app h e : items v0 (h ++ e) = items v0 h ++ tl (items v0 e).
Proof. unfold items. cbn. now rewrite flat_map_app. Qed.
Definition quiet (e : list ev) : Prop := forall t i r, ~ In (EGen t i r) e.
Lemma quiet_items h e : quiet e -> items v0 (h ++ e) = items v0 h.
Proof.
  intro Q. rewrite items_app. cut (tl (items v0 e) = []); [intros ->; apply app_nil_r|]. cbn.
  induction e as [|x e IH]; auto. cbn. rewrite IH by (intros t i r I; apply (Q t i r); now right).
  destruct x; auto. exfalso. eapply Q. now left.
Qed.
Lemma quiet_ended h e : quiet e -> ended (h ++ e) <-> ended h.
Proof.
  intro Q. unfold ended. split; intros (t & i & I); exists t, i; [apply in_app_or in I; destruct I as [I|I]; auto; exfalso; eapply Q; eauto|apply in_or_app; auto].
Qed.
Lemma noerr_app h e : noerr (h ++ e) -> noerr h.
Proof. intros N t i I. apply (N t i). apply in_or_app; auto. Qed.
Lemma quiet_el h e i : quiet e -> el (h ++ e) i = el h i.
Proof. intro Q. unfold el. now rewrite quiet_items. Qed.
Lemma running_app h e : running (h ++ e) = fold_left (fun a e => match e with EStart t i => Some (t, i) | EGen _ _ _ => None | _ => a end) e (running h).
Proof. unfold running. apply fold_left_app. Qed.

(** what a step of another thread leaves alone *)
Definition leaves s s' h u : Prop := n s' = n s /\ forall i, i < n s ->
  (own s i = Own u -> own s' i = Own u /\ w2 s' i = w2 s i) /\ (own s i = Desc -> own s' i = Desc) /\
  (noerr h -> own s i <> Free -> own s' i <> Free) /\ (tag s i <> None -> tag s' i <> None).
Lemma owned_frame s s' h e u i : leaves s s' h u -> quiet e -> owned s h u i -> owned s' (h ++ e) u i.
Proof.
  intros (N & L) Q (A & B & C & D & E). destruct (L i A) as (L1 & _). destruct (L1 B) as (L1a & L1b).
  unfold owned, last_. rewrite N, quiet_el, L1b, quiet_ended by auto. auto.
Qed.
Lemma okn_frame s s' h e u i nx : leaves s s' h u -> quiet e -> okn s h i nx -> okn s' (h ++ e) i nx.
Proof. intros (N & L) Q O. unfold okn. rewrite N, quiet_ended by auto. exact O. Qed.
Lemma told_frame s s' h e u i : leaves s s' h u -> told s h i -> told s' (h ++ e) i.
Proof.
  intros (N & L) (A & B). destruct (L i A) as (_ & _ & _ & L4). split; [lia|]. intro NE. apply L4, B. eapply noerr_app; eauto.
Qed.
Lemma PT_frame s s' h e u x : leaves s s' h u -> quiet e -> PT s h u x -> PT s' (h ++ e) u x.
Proof.
  intros L Q. destruct x; unfold PT; auto; intros I; try (destruct L as (N & L); lia).
  - eapply owned_frame; eauto.
  - rewrite quiet_el by auto. destruct I. split; auto. eapply owned_frame; eauto.
  - rewrite quiet_el by auto. destruct I as (A & B & C & D). pose proof L as (N & L'). destruct (L' i A) as (L1 & _).
    split; [lia|]. split; [apply L1; auto|]. split; auto. eapply okn_frame; eauto.
  - rewrite quiet_el by auto. destruct I as (A & B & C & D & E). pose proof L as (N & L'). destruct (L' i A) as (L1 & _). destruct (L1 B).
    split; [lia|]. split; auto. split; auto. split; [eapply okn_frame; eauto|congruence].
  - rewrite quiet_el by auto. destruct I as (A & B & C). pose proof L as (N & L'). destruct (L' i A) as (_ & L1 & _). split; [lia|auto].
  - destruct I as (I & NE). split; [eapply owned_frame; eauto|]. intro X. apply NE. eapply noerr_app; eauto.
  - destruct I as (A & B). pose proof L as (N & L'). destruct (L' i A) as (_ & _ & L1 & _). split; [lia|].
    intro NE. apply noerr_app in NE. auto.
  - destruct I as (A & B). pose proof L as (N & L'). destruct (L' i A) as (_ & _ & L1 & _). split; [lia|].
    intro NE. apply noerr_app in NE. auto.
  - destruct I as (A & B). pose proof L as (N & L'). destruct (L' i A) as (_ & _ & L1 & _). split; [lia|].
    intro NE. apply noerr_app in NE. auto.
  - eapply told_frame; eauto.
  - eapply told_frame; eauto.
Qed.
Lemma works_own s h t i : inv s h -> In i (works s t) -> i < n s /\ own s i = Own t.
Proof.
  intros I W. unfold works in W. apply in_app_or in W. destruct W as [W|W].
  - pose proof (i_th _ _ I t) as P. destruct (th s t); cbn in W; try contradiction; destruct W as [->|[]];
      unfold PT, owned in P; tauto.
  - apply in_map_iff in W. destruct W as ((j & w) & <- & W). destruct (i_stk _ _ I _ _ _ W) as ((A & B & _) & _). auto.
Qed.
(** the general step that does not end a generator run *)
Lemma inv_quiet s s' h e t x l : inv s h -> quiet e -> n s' = n s ->
  (forall u, th s' u = upd (th s) t x u) -> (forall u, stk s' u = upd (stk s) t l u) ->
  (forall u, u <> t -> leaves s s' h u) ->
  (forall i, i < n s -> cell s' (h ++ e) i) ->
  PT s' (h ++ e) t x -> (forall i v, In (i, v) l -> owned s' (h ++ e) t i /\ v = el h i) -> NoDup (work x ++ map fst l) ->
  match running (h ++ e) with Some (u, i) => In i (map fst (stk s' u)) | None => forall u, stk s' u = [] end ->
  inv s' (h ++ e).
Proof.
  intros I Q N TH SK L C P K ND R. split.
  - rewrite N, quiet_items by auto. apply (i_n _ _ I).
  - rewrite N. exact C.
  - intros u. rewrite TH. destruct (upd_case (th s) t x u) as [(-> & ->)|(NE & ->)]; auto.
    eapply PT_frame; eauto. apply (i_th _ _ I).
  - intros u i v. rewrite SK. destruct (upd_case (stk s) t l u) as [(-> & ->)|(NE & ->)]; intro W.
    + rewrite quiet_el by auto. auto.
    + destruct (i_stk _ _ I _ _ _ W). split; [eapply owned_frame; eauto|now rewrite quiet_el].
  - intros u. unfold works. rewrite TH, SK. destruct (upd_case (th s) t x u) as [(-> & ->)|(NE & ->)].
    + now rewrite upd_same.
    + rewrite upd_other by auto. apply (i_nd _ _ I).
  - exact R.
Qed.
(** steps that write nothing *)
Lemma inv_pure s s' h e t x l : inv s h -> quiet e -> n s' = n s -> own s' = own s -> tag s' = tag s -> w2 s' = w2 s ->
  (forall u, th s' u = upd (th s) t x u) -> (forall u, stk s' u = upd (stk s) t l u) ->
  (forall i v, th s t <> A6 i v) -> work x ++ map fst l = works s t ->
  PT s' (h ++ e) t x -> (forall i v, In (i, v) l -> owned s h t i /\ v = el h i) ->
  match running (h ++ e) with Some (u, i) => In i (map fst (stk s' u)) | None => forall u, stk s' u = [] end ->
  inv s' (h ++ e).
Proof.
  intros I Q N O T W TH SK N6 WK P K R.
  assert (L : forall u, leaves s s' h u) by (intros u; split; auto; intros i LT; rewrite O, T, W; auto).
  eapply inv_quiet; eauto.
  - intros i LT. pose proof (i_cell _ _ I i LT) as C. unfold cell in *. rewrite O, T, W, quiet_el by auto.
    destruct (own s i).
    + unfold last_ in *. rewrite N, quiet_ended by auto. exact C.
    + destruct C as (C1 & C2). split; auto. unfold works. rewrite TH, SK.
      destruct (upd_case (th s) t x t0) as [(-> & ->)|(NE & ->)]; [rewrite upd_same, WK|rewrite upd_other by auto]; exact C2.
    + destruct C as (C1 & nx & C2 & C3). split; [|exists nx; split; auto; exact (okn_frame s s' h e t i nx (L t) Q C3)].
      destruct C1 as [C1|(C1 & u & C4)]; [left; auto|right; split; auto]. exists u. rewrite TH.
      rewrite upd_other; auto. intros ->. exact (N6 _ _ C4).
  - intros i v J. destruct (K _ _ J) as (K1 & K2). split; [|exact K2]. exact (owned_frame s s' h e t i (L t) Q K1).
  - rewrite WK. apply (i_nd _ _ I).
Qed.
Lemma upd_id (f : nat -> list (nat * word)) t : forall u, f u = upd f t (f t) u.
Proof. intro u. destruct (upd_case f t (f t) u) as [(-> & ->)|(_ & ->)]; auto. Qed.
Lemma quiet_nil : quiet [].
Proof. intros t i r []. Qed.
Lemma app_nil_ev (h : list ev) : h ++ [] = h.
Proof. apply app_nil_r. Qed.
Lemma run_nil h : running (h ++ []) = running h.
Proof. now rewrite app_nil_r. Qed.
Lemma nodup_app_r {A} (a b : list A) : NoDup (a ++ b) -> NoDup b.
Proof. induction a; cbn; auto. intro N. inversion N; auto. Qed.
(** when a generator is running, nothing else is on the last pair *)
Lemma frame_only s h t i v l : inv s h -> stk s t = (i, v) :: l ->
  owned s h t i /\ v = el h i /\ l = [] /\ (forall u, u <> t -> stk s u = []) /\
  (forall u j, owned s h u j -> u = t /\ j = i).
Proof.
  intros I SK. destruct (i_stk _ _ I t i v) as (O & V); [rewrite SK; now left|].
  assert (U : forall u j, owned s h u j -> u = t /\ j = i).
  { intros u j (A & B & C & D & E). destruct O as (A' & B' & C' & D' & E'). assert (j = i) as -> by lia. split; auto. congruence. }
  split; auto. split; auto. split; [|split; auto].
  - destruct l as [|(j & w) l]; auto. exfalso. destruct (i_stk _ _ I t j w) as (O2 & _); [rewrite SK; right; now left|].
    destruct (U _ _ O2) as (_ & ->). pose proof (i_nd _ _ I t) as N. unfold works in N. rewrite SK in N. cbn in N.
    apply nodup_app_r in N. inversion N; subst. apply H1. now left.
  - intros u NE. destruct (stk s u) as [|(j & w) r] eqn:E; auto. exfalso.
    destruct (i_stk _ _ I u j w) as (O2 & _); [rewrite E; now left|]. now destruct (U _ _ O2).
Qed.
Lemma nd_work s h t : inv s h -> NoDup (work (th s t) ++ map fst (stk s t)).
Proof. intro I. apply (i_nd _ _ I). Qed.
Lemma gen_items_val h t i x : items v0 (h ++ [EGen t i (Val x)]) = items v0 h ++ [x].
Proof. now rewrite items_app. Qed.
Lemma gen_items_other h t i r : (forall x, r <> Val x) -> items v0 (h ++ [EGen t i r]) = items v0 h.
Proof. intro N. rewrite items_app. destruct r; [exfalso; eapply N; eauto| |]; exact (app_nil_r _). Qed.
Lemma ended_val h t i r : r <> Eof -> ended (h ++ [EGen t i r]) <-> ended h.
Proof.
  intro N. unfold ended. split; intros (u & j & I); exists u, j; [apply in_app_or in I; destruct I as [I|[I|[]]]; auto; congruence|apply in_or_app; auto].
Qed.
(** a cell that a step of t has not written *)
Lemma cell_frame s s' h e t x l j : quiet e -> n s' = n s -> own s' j = own s j -> tag s' j = tag s j -> w2 s' j = w2 s j ->
  (forall u, th s' u = upd (th s) t x u) -> (forall u, stk s' u = upd (stk s) t l u) ->
  (own s j = Own t -> In j (works s t) -> In j (work x ++ map fst l)) -> (forall w, th s t <> A6 j w) ->
  cell s h j -> cell s' (h ++ e) j.
Proof.
  intros Q N O T W TH SK WK N6 C. unfold cell in *. rewrite O, T, W, quiet_el by auto. destruct (own s j) eqn:OJ.
  - unfold last_ in *. rewrite N, quiet_ended by auto. exact C.
  - destruct C as (C1 & C2). split; auto. unfold works. rewrite TH, SK.
    destruct (upd_case (th s) t x t0) as [(-> & ->)|(NE & ->)]; [rewrite upd_same; auto|rewrite upd_other by auto; exact C2].
  - destruct C as (C1 & nx & C2 & C3). split.
    + destruct C1 as [C1|(C1 & u & C4)]; [left; auto|right; split; auto]. exists u. rewrite TH.
      rewrite upd_other; auto. intros ->. exact (N6 _ C4).
    + exists nx. split; auto. unfold okn in *. rewrite N, quiet_ended by auto. exact C3.
Qed.
(** the end of a generator run *)
Lemma inv_gen s s' h e t i v l x : inv s h -> stk s t = (i, v) :: l -> th s t = Idle -> n s <= n s' ->
  (forall j, j < n s -> own s' j = own s j /\ tag s' j = tag s j /\ w2 s' j = w2 s j) ->
  (forall u, th s' u = upd (th s) t x u) -> (forall u, stk s' u = upd (stk s) t l u) ->
  (forall j, j < n s -> el (h ++ e) j = el h j) -> n s' = length (items v0 (h ++ e)) ->
  (forall j nx, ~ ended h -> okn s h j nx -> okn s' (h ++ e) j nx) ->
  work x = [i] -> PT s' (h ++ e) t x ->
  (forall j, n s <= j -> j < n s' -> cell s' (h ++ e) j) -> running (h ++ e) = None -> inv s' (h ++ e).
Proof.
  intros I SK0 TH0 LE CE TH SK EL N OK WX P NEW R.
  destruct (frame_only _ _ _ _ _ _ I SK0) as (O & V & -> & S0' & U).
  assert (NE : ~ ended h) by apply O.
  assert (TOLD : forall j, told s h j -> told s' (h ++ e) j).
  { intros j (A & B). split; [lia|]. intro X. destruct (CE j A) as (_ & -> & _). apply B. eapply noerr_app; eauto. }
  assert (LK : forall j, j < n s /\ (noerr h -> own s j <> Free) -> j < n s' /\ (noerr (h ++ e) -> own s' j <> Free)).
  { intros j (A & B). split; [lia|]. intro X. destruct (CE j A) as (-> & _). apply B. eapply noerr_app; eauto. }
  split.
  - exact N.
  - intros j LT. destruct (le_lt_dec (n s) j) as [G|G]; [auto|].
    pose proof (i_cell _ _ I j G) as C. destruct (CE j G) as (E1 & E2 & E3). unfold cell in *. rewrite E1, E2, E3, EL by auto.
    destruct (own s j) eqn:OJ.
    + exfalso. destruct C as (C1 & C2 & C3). destruct O as (A & B & CC & D & E). destruct C3 as (C3 & _).
      assert (j = i) by lia. congruence.
    + destruct C as (C1 & C2). split; auto. unfold works in *. rewrite TH, SK.
      destruct (upd_case (th s) t x t0) as [(-> & ->)|(NT & ->)].
      * rewrite upd_same, WX. rewrite TH0, SK0 in C2. exact C2.
      * rewrite upd_other by auto. exact C2.
    + destruct C as (C1 & nx & C2 & C3). split; [|exists nx; auto].
      destruct C1 as [C1|(C1 & u & C4)]; [left; auto|right; split; auto]. exists u. rewrite TH.
      rewrite upd_other; auto. intros ->. congruence.
  - intros u. rewrite TH. destruct (upd_case (th s) t x u) as [(-> & ->)|(NT & ->)]; auto.
    pose proof (i_th _ _ I u) as PU. destruct (th s u); unfold PT in *; auto; try lia.
    + exfalso. apply NT. apply (U u i0). exact PU.
    + exfalso. apply NT. apply (U u i0). apply PU.
    + destruct PU as (A & B & C & D). destruct (CE i0 A) as (E1 & E2 & E3). rewrite E1, EL by auto. split; [lia|]. auto.
    + destruct PU as (A & B & C & D & E). destruct (CE i0 A) as (E1 & E2 & E3). rewrite E1, E3, EL by auto. split; [lia|]. auto.
    + destruct PU as (A & B & C). destruct (CE i0 A) as (E1 & E2 & E3). rewrite E1, EL by auto. split; [lia|]. auto.
    + exfalso. apply NT. apply (U u i0). apply PU.
  - intros u j w. rewrite SK. destruct (upd_case (stk s) t [] u) as [(-> & ->)|(NT & ->)]; [intros []|].
    rewrite (S0' u NT). intros [].
  - intros u. unfold works. rewrite TH, SK. destruct (upd_case (th s) t x u) as [(-> & ->)|(NT & ->)].
    + rewrite upd_same, WX. cbn. constructor; [intros []|constructor].
    + rewrite upd_other by auto. apply (i_nd _ _ I).
  - rewrite R. intro u. rewrite SK. destruct (upd_case (stk s) t [] u) as [(-> & ->)|(NT & ->)]; auto.
Qed.
Ltac pure_ I t H S :=
  eapply (inv_pure _ _ _ _ t _ (stk S t) I); try reflexivity;
  [ exact quiet_nil | exact (upd_id (stk S) t) | rewrite H; discriminate | unfold works; rewrite H; reflexivity
  | rewrite app_nil_ev; cbn [PT] | intros ? ?; apply (i_stk _ _ I) | rewrite run_nil; exact (i_run _ _ I) ].
Lemma inv_same s h e : inv s h -> quiet e -> running (h ++ e) = running h -> inv s (h ++ e).
Proof.
  intros I Q R. eapply (inv_quiet s s h e 0 (th s 0) (stk s 0) I Q); auto.
  - intro u. destruct (upd_case (th s) 0 (th s 0) u) as [(-> & ->)|(_ & ->)]; auto.
  - exact (upd_id (stk s) 0).
  - intros u _. split; auto.
  - intros i LT. pose proof (i_cell _ _ I i LT) as C. unfold cell in *. destruct (own s i); unfold last_ in *.
    + rewrite quiet_el, quiet_ended by auto. exact C.
    + exact C.
    + rewrite quiet_el by auto. destruct C as (C1 & nx & C2 & C3). split; auto. exists nx. split; auto. unfold okn in *. now rewrite quiet_ended.
  - apply (PT_frame s s h e 0); auto; [split; auto|apply (i_th _ _ I)].
  - intros i v J. destruct (i_stk _ _ I _ _ _ J). split; auto. apply (owned_frame s s h e 0); auto. split; auto.
  - apply (i_nd _ _ I).
  - rewrite R. exact (i_run _ _ I).
Qed.
Ltac quiet_same := match goal with I : inv _ _ |- _ => apply (inv_same _ _ _ I); [intros ? ? ? [?|[]]; discriminate|now rewrite running_app] end.
Lemma step_inv s h t e s' : inv s h -> step s t e s' -> inv s' (h ++ e).
Proof.
  intros I ST. pose proof (i_th _ _ I t) as P.
  inversion ST; subst; rewrite H in P; cbn [PT] in P.
  - pure_ I t H s. exact H0.
  - pure_ I t H s. exact P.
  - pure_ I t H s. split; auto.
  - (* A0 *) pose proof (i_cell _ _ I i P) as C. unfold cell in C. rewrite H0 in C. destruct C as (C1 & C2 & C3).
    eapply (inv_quiet _ _ _ _ t _ (stk s t) I); try reflexivity; [exact quiet_nil|exact (upd_id (stk s) t)|..].
    + intros u NE. split; [reflexivity|]. intros j LT. cbn. destruct (upd_case (own s) i (Own t) j) as [(-> & ->)|(NJ & ->)]; [|auto].
      rewrite H0. repeat split; try discriminate; auto.
    + intros j LT. destruct (Nat.eq_dec j i) as [->|NJ].
      * rewrite app_nil_ev. unfold cell. cbn. rewrite upd_same. split; auto. unfold works; cbn. rewrite upd_same. now left.
      * eapply (cell_frame s _ h [] t (A1 i) (stk s t)); try reflexivity; [exact quiet_nil|cbn; now apply upd_other|exact (upd_id (stk s) t)| |rewrite H; discriminate|apply (i_cell _ _ I); auto].
        intros _ W. unfold works in W. rewrite H in W. right. exact W.
    + rewrite app_nil_ev. cbn [PT]. split; [exact P|]. cbn. rewrite upd_same. auto.
    + intros j w J. rewrite app_nil_ev. destruct (i_stk _ _ I _ _ _ J) as (A & B). split; auto.
      unfold owned in *. cbn. rewrite upd_other; [exact A|]. intros ->. destruct A as (_ & A & _). congruence.
    + cbn. constructor; [|pose proof (nd_work _ _ t I) as ND; rewrite H in ND; exact ND].
      intro J. apply in_map_iff in J. destruct J as ((j & w) & E & J). cbn in E. subst j.
      destruct (i_stk _ _ I _ _ _ J) as ((_ & A & _) & _). congruence.
    + rewrite run_nil. exact (i_run _ _ I).
  - pure_ I t H s. split; auto.
  - pure_ I t H s. split; [exact P|]. unfold owned in P. tauto.
  - (* A2: the generator starts *)
    eapply (inv_pure _ _ _ _ t Idle ((i, v) :: stk s t) I); try reflexivity.
    + intros u j r [J|[]]. discriminate.
    + rewrite H; discriminate.
    + unfold works. rewrite H. reflexivity.
    + intros j w [J|J]; [|apply (i_stk _ _ I _ _ _ J)]. inversion J; subst. exact P.
    + rewrite running_app. cbn. rewrite upd_same. now left.
  - (* val *)
    destruct (frame_only _ _ _ _ _ _ I H0) as (O & V & -> & _ & _).
    assert (EL : forall j, j < n s -> el (h ++ [EGen t i (Val x)]) j = el h j).
    { intros j LT. unfold el. rewrite gen_items_val, app_nth1; auto. rewrite <- (i_n _ _ I). exact LT. }
    eapply (inv_gen s _ h _ t i v [] (A3 i v (Some (n s))) I H0 H); try reflexivity; auto.
    + cbn. lia.
    + intros j LT. cbn. rewrite !upd_other by lia. auto.
    + change (S (n s) = length (items v0 (h ++ [EGen t i (Val x)]))). rewrite gen_items_val, app_length, <- (i_n _ _ I). cbn. lia.
    + intros j nx NE OK. unfold okn in *. cbn [n set_stk set_th new_pair]. destruct OK as [(-> & OK)|(_ & _ & OK)]; [left; split; auto; lia|contradiction].
    + cbn [PT]. destruct O as (A & B & C & D & E). cbn. rewrite upd_other by lia. split; [lia|]. split; auto.
      split; [rewrite EL; auto|]. left. cbn. rewrite D. split; auto.
    + intros j L1 L2. cbn in L2. assert (j = n s) as -> by lia. unfold cell. cbn. rewrite !upd_same.
      split; auto. split.
      * unfold el. rewrite gen_items_val, (i_n _ _ I), app_nth2, Nat.sub_diag by lia. reflexivity.
      * split; cbn; auto. rewrite ended_val by discriminate. apply O.
    + rewrite running_app. reflexivity.
  - (* eof *)
    destruct (frame_only _ _ _ _ _ _ I H0) as (O & V & -> & _ & _).
    assert (IT : items v0 (h ++ [EGen t i Eof]) = items v0 h) by (apply gen_items_other; discriminate).
    assert (ED : ended (h ++ [EGen t i Eof])) by (exists t, i; apply in_or_app; right; now left).
    eapply (inv_gen s _ h _ t i v [] (A3 i v None) I H0 H); try reflexivity; auto.
    + intros j LT. unfold el. now rewrite IT.
    + rewrite IT. apply (i_n _ _ I).
    + intros j nx NE [OK|(_ & _ & OK)]; [left; exact OK|contradiction].
    + cbn [PT]. destruct O as (A & B & C & D & E). split; [exact A|]. split; [exact B|]. split; [unfold el; rewrite IT; exact V|].
      right. auto.
    + intros j L1 L2. cbn in L2. lia.
    + rewrite running_app. reflexivity.
  - (* err *)
    destruct (frame_only _ _ _ _ _ _ I H0) as (O & V & -> & _ & _).
    assert (IT : items v0 (h ++ [EGen t i Err]) = items v0 h) by (apply gen_items_other; discriminate).
    assert (EL : forall j, el (h ++ [EGen t i Err]) j = el h j) by (intro j; unfold el; now rewrite IT).
    eapply (inv_gen s _ h _ t i v [] (AE i) I H0 H); try reflexivity; auto.
    + rewrite IT. apply (i_n _ _ I).
    + intros j nx NE [OK|(_ & _ & OK)]; [left; exact OK|contradiction].
    + cbn [PT]. split.
      * destruct O as (A & B & C & D & E). unfold owned, last_. rewrite EL, ended_val by discriminate. cbn. auto.
      * intro NE. apply (NE t i). apply in_or_app. right. now left.
    + intros j L1 L2. cbn in L2. lia.
    + rewrite running_app. reflexivity.
  - (* A3 *)
    destruct P as (A & B & C & D).
    eapply (inv_quiet _ _ _ _ t _ (stk s t) I); try reflexivity; [exact quiet_nil|exact (upd_id (stk s) t)|..].
    + intros u NE. split; [reflexivity|]. intros j LT. cbn. repeat split; auto. intros.
      apply upd_other. intros ->. congruence.
    + intros j LT. pose proof (i_cell _ _ I j LT) as CJ. destruct (Nat.eq_dec j i) as [->|NJ].
      * rewrite app_nil_ev. unfold cell in *. cbn. rewrite B in *. split; [apply CJ|]. unfold works; cbn. rewrite upd_same. now left.
      * eapply (cell_frame s _ h [] t (A4 i v nx) (stk s t)); try reflexivity; [exact quiet_nil|cbn; now apply upd_other|exact (upd_id (stk s) t)| |rewrite H; discriminate|exact CJ].
        intros _ W. unfold works in W. rewrite H in W. exact W.
    + rewrite app_nil_ev. cbn [PT]. cbn. rewrite upd_same. repeat split; auto.
    + intros j w J. rewrite app_nil_ev. destruct (i_stk _ _ I _ _ _ J) as (A' & B'). split; auto.
      unfold owned in *. cbn. rewrite upd_other; [exact A'|]. intros ->.
      pose proof (nd_work _ _ t I) as ND. rewrite H in ND. cbn in ND. inversion ND; subst.
      match goal with X : ~ In i _ |- _ => apply X end. apply in_map_iff. exists (i, el h i). split; auto.
    + cbn. pose proof (nd_work _ _ t I) as ND. rewrite H in ND. exact ND.
    + rewrite run_nil. exact (i_run _ _ I).
  - (* A4 *)
    destruct P as (A & B & C & D & E).
    pose proof (i_cell _ _ I i A) as CI. unfold cell in CI. rewrite B in CI. destruct CI as (TN & _).
    pose proof (nd_work _ _ t I) as ND. rewrite H in ND. cbn in ND. inversion ND; subst.
    eapply (inv_quiet _ _ _ _ t _ (stk s t) I); try reflexivity; [exact quiet_nil|exact (upd_id (stk s) t)|..].
    + intros u NE. split; [reflexivity|]. intros j LT. cbn. destruct (upd_case (own s) i Desc j) as [(-> & ->)|(NJ & ->)]; [|auto].
      rewrite B. repeat split; try discriminate; auto; congruence.
    + intros j LT. pose proof (i_cell _ _ I j LT) as CJ. destruct (Nat.eq_dec j i) as [->|NJ].
      * rewrite app_nil_ev. unfold cell in *. cbn. rewrite upd_same. split; [right; split; auto; exists t; apply upd_same|]. exists nx. auto.
      * eapply (cell_frame s _ h [] t (A6 i (el h i)) (stk s t)); try reflexivity; [exact quiet_nil|cbn; now apply upd_other|exact (upd_id (stk s) t)| |rewrite H; discriminate|exact CJ].
        intros _ W. unfold works in W. rewrite H in W. destruct W as [W|W]; [congruence|exact W].
    + rewrite app_nil_ev. cbn [PT]. cbn. rewrite upd_same. auto.
    + intros j w J. rewrite app_nil_ev. destruct (i_stk _ _ I _ _ _ J) as (A' & B'). split; auto.
      unfold owned in *. cbn. rewrite upd_other; [exact A'|]. intros ->.
      match goal with X : ~ In i _ |- _ => apply X end. apply in_map_iff. exists (i, w). split; auto.
    + cbn. assumption.
    + rewrite run_nil. exact (i_run _ _ I).
  - (* A6 *)
    destruct P as (A & B & C).
    pose proof (i_cell _ _ I i A) as CI. unfold cell in CI. rewrite B in CI. destruct CI as (_ & nx & W & OK).
    eapply (inv_quiet _ _ _ _ t _ (stk s t) I); try reflexivity; [exact quiet_nil|exact (upd_id (stk s) t)|..].
    + intros u NE. split; [reflexivity|]. intros j LT. cbn. repeat split; auto. intros.
      destruct (upd_case (tag s) i (Some v) j) as [(-> & ->)|(NJ & ->)]; [discriminate|auto].
    + intros j LT. pose proof (i_cell _ _ I j LT) as CJ. destruct (Nat.eq_dec j i) as [->|NJ].
      * rewrite app_nil_ev. unfold cell in *. cbn. rewrite B in *. rewrite upd_same. split; [left; congruence|]. exists nx. auto.
      * eapply (cell_frame s _ h [] t (R i) (stk s t)); try reflexivity; [exact quiet_nil|cbn; now apply upd_other|exact (upd_id (stk s) t)| |rewrite H; congruence|exact CJ].
        intros _ W'. unfold works in W'. rewrite H in W'. exact W'.
    + rewrite app_nil_ev. cbn [PT]. split; cbn; auto. rewrite upd_same. discriminate.
    + intros j w J. rewrite app_nil_ev. destruct (i_stk _ _ I _ _ _ J) as (A' & B'). split; auto.
    + cbn. pose proof (nd_work _ _ t I) as ND. rewrite H in ND. exact ND.
    + rewrite run_nil. exact (i_run _ _ I).
  - (* AE *)
    destruct P as ((A & B & C & D) & NR).
    pose proof (i_cell _ _ I i A) as CI. unfold cell in CI. rewrite B in CI. destruct CI as (TN & _).
    pose proof (nd_work _ _ t I) as ND. rewrite H in ND. cbn in ND. inversion ND; subst.
    eapply (inv_quiet _ _ _ _ t _ (stk s t) I); try reflexivity; [exact quiet_nil|exact (upd_id (stk s) t)|..].
    + intros u NE. split; [reflexivity|]. intros j LT. cbn. destruct (upd_case (own s) i Free j) as [(-> & ->)|(NJ & ->)]; [|auto].
      rewrite B. repeat split; try discriminate; auto; congruence.
    + intros j LT. pose proof (i_cell _ _ I j LT) as CJ. destruct (Nat.eq_dec j i) as [->|NJ].
      * rewrite app_nil_ev. unfold cell in *. cbn. rewrite upd_same. auto.
      * eapply (cell_frame s _ h [] t Idle (stk s t)); try reflexivity; [exact quiet_nil|cbn; now apply upd_other|exact (upd_id (stk s) t)| |rewrite H; discriminate|exact CJ].
        intros _ W. unfold works in W. rewrite H in W. destruct W as [W|W]; [congruence|exact W].
    + intros j w J. rewrite app_nil_ev. destruct (i_stk _ _ I _ _ _ J) as (A' & B'). split; auto.
      unfold owned in *. cbn. rewrite upd_other; [exact A'|]. intros ->.
      match goal with X : ~ In i _ |- _ => apply X end. apply in_map_iff. exists (i, w). split; auto.
    + cbn. assumption.
    + rewrite run_nil. exact (i_run _ _ I).
  - (* recursion *)
    eapply (inv_pure _ _ _ _ t Idle (stk s t) I); try reflexivity.
    + intros u j r [J|[]]. discriminate.
    + exact (upd_id (stk s) t).
    + rewrite H; discriminate.
    + unfold works. rewrite H. reflexivity.
    + intros ? ?; apply (i_stk _ _ I).
    + rewrite running_app. exact (i_run _ _ I).
  - pure_ I t H s. exact P.
  - pure_ I t H s. exact P.
  - pure_ I t H s. split; [apply P|auto].
  - pure_ I t H s. exact P.
  - pure_ I t H s. split; [apply P|]. intros NE. destruct P as (_ & P). now specialize (P NE).
  - pure_ I t H s. apply P.
  - pure_ I t H s. exact P.
  - (* car *) quiet_same.
  - quiet_same.
  - eapply (inv_pure _ _ _ _ t _ (stk s t) I); try reflexivity;
    [exact quiet_nil | exact (upd_id (stk s) t) | rewrite H; discriminate | unfold works; rewrite H; reflexivity
    | intros ? ?; apply (i_stk _ _ I) | rewrite run_nil; exact (i_run _ _ I)].
Qed.
End P.
