(** How forces end, and what tame histories add. *)
From Coq Require Import List Bool Arith Lia.
From Verif Require Import PromModel PromSpec PromProofs PromProofs2.
Import ListNotations.

(** a thread on its way to raise got there by an exception *)
Definition excs (x : pc) : option nat :=
  match x with
  | H4 p _ | C0 p (RExc _) | C1 p _ (RExc _) | CW p _ _ _ ARaise | C6 p _ _ ARaise | C8 p _ ARaise => Some p
  | _ => None
  end.
Definition kinv s h : Prop :=
  (forall t p, excs (th s t) = Some p -> exists u k e, In (EResult u p k (RExc e)) h) /\
  (forall t p k x, In (EDone t p k x) h ->
     (k = Return /\ exists vs, x = CVals vs) \/ (k = Raise /\ exists e, x = CExc e) \/
     (k = Raise /\ exists u k' e, In (EResult u p k' (RExc e)) h)).
Lemma upd_case {A} (f : nat -> A) i v j : (j = i /\ upd f i v j = v) \/ (j <> i /\ upd f i v j = f j).
Proof. unfold upd. destruct (Nat.eqb_spec j i); auto. Qed.
Lemma kinv_step m s t e s' h : inv m s -> kinv s h -> step s t e s' -> kinv s' (h ++ e).
Proof.
  intros I (K1 & K2) ST. pose proof (i_th _ _ I t) as P.
  assert (MON : forall p, (exists u k x, In (EResult u p k (RExc x)) h) -> exists u k x, In (EResult u p k (RExc x)) (h ++ e))
    by (intros p (u & k & x & Q); exists u, k, x; apply in_or_app; auto).
  split.
  - intros u p Q. inversion ST; subst; cbn in Q;
      try (match type of Q with context [upd (th s) t ?x u] => destruct (upd_case (th s) t x u) as [(-> & UU)|(UN & UU)] end; rewrite UU in Q);
      try (apply MON, (K1 u); exact Q);
      try (apply MON, (K1 t); rewrite H; exact Q);
      try discriminate;
      try (apply MON, (K1 t); rewrite H; destruct r; cbn in *; congruence);
      try (apply MON, (K1 t); rewrite H; destruct a; cbn in *; congruence).
    destruct r; try discriminate. inversion Q; subst. exists t, k, e. apply in_or_app. right. now left.
  - intros u p k x Q. apply in_app_or in Q. destruct Q as [Q|Q].
    + destruct (K2 _ _ _ _ Q) as [A|[A|(A & B)]]; auto.
    + inversion ST; subst; rewrite H in P; cbn [PI] in P; cbn in Q; try (destruct Q; fail); destruct Q as [Q|[]]; inversion Q; subst.
      * destruct P as ((P1 & P2 & P3) & P4 & P5). pose proof (i_wf _ _ I _ P2) as W. rewrite P4 in W.
        destruct v; [congruence|left|right; left]; auto.
      * right. right. split; auto. apply MON. match type of H with th s ?u0 = _ => apply (K1 u0) end. now rewrite H.
Qed.
Lemma exec_kinv m ok s h : exec ok s h -> good m ok h -> kinv s h.
Proof.
  induction 1 as [|s h t e s' E IH O ST]; intro G.
  - split; cbn; intros; try discriminate; contradiction.
  - apply good_app in G. destruct (exec_inv _ _ _ _ E G). eapply kinv_step; eauto.
Qed.

(** tame histories *)
Record tinv (s : st) (h : list ev) : Prop := {
  t_ptr : forall p, p < np s -> ptr s p = p \/ out s p <> None;
  t_code : forall c, c < np s -> sta (cont s c) = Unforced -> lock s c = None ->
    exists h0, code (cont s c) = CThunk h0 /\ In (ENew c h0 (par (cont s c))) h;
  t_out : forall p x, p < np s -> out s p = Some x -> yields h p x;
  t_th : forall t, match th s t with
    | C0 p r | C1 p _ r => exists u k, In (EResult u p k r) h
    | C2 p _ r | C3 p _ r _ | C4 p _ r _ _ | C5 p _ r _ => exists u k, In (EResult u p k (RProm r)) h
    | CW p _ k _ _ => yields h p k
    | C6 p c v _ => v <> Unforced /\ yields h p (code (cont s c))
    | _ => True end
}.
Lemma yields_app h e p x : yields h p x -> yields (h ++ e) p x.
Proof.
  induction 1.
  - eapply Y_eager, in_or_app; eauto.
  - eapply Y_vals, in_or_app; eauto.
  - eapply Y_exc, in_or_app; eauto.
  - eapply Y_prom; eauto. apply in_or_app; eauto.
Qed.
Definition tpc (s : st) (h : list ev) (x : pc) : Prop :=
  match x with
  | C0 p r | C1 p _ r => exists u k, In (EResult u p k r) h
  | C2 p _ r | C3 p _ r _ | C4 p _ r _ _ | C5 p _ r _ => exists u k, In (EResult u p k (RProm r)) h
  | CW p _ k _ _ => yields h p k
  | C6 p c v _ => v <> Unforced /\ yields h p (code (cont s c))
  | _ => True
  end.
Lemma tpc_frame s s' h e u x : inv true s -> th s u = x ->
  (forall c, c < np s -> lock s c = Some u -> cont s' c = cont s c) -> tpc s h x -> tpc s' (h ++ e) x.
Proof.
  intros I TU F. pose proof (i_th _ _ I u) as Pu. rewrite TU in Pu.
  assert (EXI : forall p r, (exists u k, In (EResult u p k r) h) -> exists u k, In (EResult u p k r) (h ++ e))
    by (intros p r (v & k & Q); exists v, k; apply in_or_app; auto).
  destruct x; cbn [tpc]; auto; try apply yields_app.
  cbn [PI] in Pu. destruct Pu as (((_ & L & _) & LK & _) & _). rewrite (F c) by auto. intros (A & B). split; auto. now apply yields_app.
Qed.
Lemma out_same s s' p : ptr s' = ptr s -> cont s' = cont s -> out s' p = out s p.
Proof. intros A B. unfold out. now rewrite A, B. Qed.
Lemma t_pc s h : tinv s h -> forall t, tpc s h (th s t).
Proof. intros T t. exact (t_th _ _ T t). Qed.
Lemma tinv_move s s' t x h e : inv true s -> tinv s h ->
  (forall u, th s' u = upd (th s) t x u) ->
  (forall u c, u <> t -> c < np s -> lock s c = Some u -> cont s' c = cont s c) ->
  tpc s' (h ++ e) x ->
  (forall p, p < np s' -> ptr s' p = p \/ out s' p <> None) ->
  (forall c, c < np s' -> sta (cont s' c) = Unforced -> lock s' c = None ->
     exists h0, code (cont s' c) = CThunk h0 /\ In (ENew c h0 (par (cont s' c))) (h ++ e)) ->
  (forall p y, p < np s' -> out s' p = Some y -> yields (h ++ e) p y) -> tinv s' (h ++ e).
Proof.
  intros I T TH F TP A B C. split; auto. intros u.
  change (tpc s' (h ++ e) (th s' u)). rewrite TH. destruct (upd_case (th s) t x u) as [(-> & ->)|(NE & ->)]; auto.
  eapply tpc_frame; eauto. now apply t_pc.
Qed.
Lemma tinv_same s s' t x h e : inv true s -> tinv s h ->
  th s' = upd (th s) t x -> np s' = np s -> ptr s' = ptr s -> cont s' = cont s ->
  (forall c, c < np s -> sta (cont s c) = Unforced -> lock s' c = None -> lock s c = None) ->
  tpc s' (h ++ e) x -> tinv s' (h ++ e).
Proof.
  intros I T TH N P C L TP. eapply (tinv_move s s' t x); eauto.
  - intros u. now rewrite TH.
  - intros. now rewrite C.
  - intros p. rewrite N, P, (out_same s s') by auto. apply (t_ptr _ _ T).
  - intros c. rewrite N, C. intros LT U K. destruct (t_code _ _ T c) as (h0 & Q1 & Q2); auto.
    exists h0. split; auto. apply in_or_app; auto.
  - intros p y. rewrite N, (out_same s s') by auto. intros LT Q. apply yields_app. now apply (t_out _ _ T).
Qed.
Lemma own s h p c : inv true s -> tinv s h -> at_ s p c -> sta (cont s c) = Unforced -> p = c.
Proof.
  intros I T (L & L2 & V) U. destruct (vis_unforced _ _ _ V U) as (-> & O).
  destruct (t_ptr _ _ T p L); congruence.
Qed.
Lemma tinv_step s t e s' h : inv true s -> done s h -> tinv s h -> okm true s t e h -> step s t e s' -> tinv s' (h ++ e).
Proof.
  intros I D T OK ST. pose proof (step_ext _ _ _ _ _ I ST) as X. pose proof (i_th _ _ I t) as P.
  pose proof (t_pc _ _ T t) as PT. 
  assert (EXI : forall p r, (exists u k, In (EResult u p k r) h) -> exists u k, In (EResult u p k r) (h ++ e))
    by (intros p r (v & k & Q); exists v, k; apply in_or_app; auto).
  assert (YD : forall p r, (exists u k, In (EResult u p k r) h) -> match r with RVals vs => yields h p (CVals vs) | RExc x => yields h p (CExc x) | _ => True end).
  { intros p r (v & k & Q). destruct r; auto; [eapply Y_vals; eauto|eapply Y_exc; eauto]. }
  inversion ST; subst; rewrite H in P, PT; cbn [PI] in P; cbn [tpc] in PT;
    try (eapply (tinv_same _ _ t _ _ _ I T); 
         [ reflexivity | reflexivity | reflexivity | reflexivity
         | intros c0 LT0 U0 K0; first [exact K0|cbn in K0; destruct (upd_case (lock s) c (Some t) c0) as [(-> & UU)|(NE & UU)]; rewrite UU in K0; [discriminate|exact K0]]
         | cbn [tpc goon]; auto; fail ]).
  - (* new *) eapply (tinv_move _ _ t Idle _ _ I T).
    + intros u. cbn. destruct (upd_case (th s) t Idle u) as [(-> & ->)|(_ & ->)]; auto.
    + intros u c NE LT _. cbn. apply upd_other. lia.
    + exact Logic.I.
    + intros p L. cbn in L |- *. destruct (upd_case (ptr s) (np s) (np s) p) as [(-> & UU)|(NE & UU)]; [left; exact UU|].
      rewrite UU. assert (L2 : p < np s) by lia. destruct (t_ptr _ _ T p L2) as [Q|Q]; [left; exact Q|right].
      destruct (out s p) eqn:O; [|congruence]. rewrite (x_out _ _ _ X _ _ L2 O). discriminate.
    + intros c L U K. cbn in L, U, K |- *. destruct (upd_case (cont s) (np s) {| sta := Unforced; code := CThunk h0; par := pr |} c) as [(-> & UU)|(NE & UU)]; rewrite UU in *.
      * exists h0. cbn. split; auto. apply in_or_app. right. now left.
      * rewrite upd_other in K by auto. destruct (t_code _ _ T c) as (h1 & Q1 & Q2); auto; [lia|]. exists h1. split; auto. apply in_or_app; auto.
    + intros p y L O. cbn in L. destruct (Nat.eq_dec p (np s)) as [->|NE].
      * unfold out in O. cbn in O. rewrite !upd_same in O. discriminate.
      * assert (L2 : p < np s) by lia. apply yields_app. apply (t_out _ _ T); auto.
        unfold out in O |- *. cbn in O. rewrite (upd_other (ptr s)) in O by auto.
        pose proof (i_ptr _ _ I _ L2). rewrite upd_other in O by lia. exact O.
  - (* eager *) eapply (tinv_move _ _ t Idle _ _ I T).
    + intros u. cbn. destruct (upd_case (th s) t Idle u) as [(-> & ->)|(_ & ->)]; auto.
    + intros u c NE LT _. cbn. apply upd_other. lia.
    + exact Logic.I.
    + intros p L. cbn in L |- *. destruct (upd_case (ptr s) (np s) (np s) p) as [(-> & UU)|(NE & UU)]; [left; exact UU|].
      rewrite UU. assert (L2 : p < np s) by lia. destruct (t_ptr _ _ T p L2) as [Q|Q]; [left; exact Q|right].
      destruct (out s p) eqn:O; [|congruence]. rewrite (x_out _ _ _ X _ _ L2 O). discriminate.
    + intros c L U K. cbn in L, U, K |- *. destruct (upd_case (cont s) (np s) {| sta := Forced; code := CVals vs; par := 0 |} c) as [(-> & UU)|(NE & UU)]; rewrite UU in *.
      * discriminate.
      * rewrite upd_other in K by auto. destruct (t_code _ _ T c) as (h1 & Q1 & Q2); auto; [lia|]. exists h1. split; auto. apply in_or_app; auto.
    + intros p y L O. cbn in L. destruct (Nat.eq_dec p (np s)) as [->|NE].
      * unfold out in O. cbn in O. rewrite !upd_same in O. cbn in O. inversion O; subst. eapply Y_eager. apply in_or_app. right. now left.
      * assert (L2 : p < np s) by lia. apply yields_app. apply (t_out _ _ T); auto.
        unfold out in O |- *. cbn in O. rewrite (upd_other (ptr s)) in O by auto.
        pose proof (i_ptr _ _ I _ L2). rewrite upd_other in O by lia. exact O.
  - (* result *) eapply (tinv_same _ _ t _ _ _ I T); try reflexivity; [intros; assumption|].
    cbn [tpc]. exists t, k. apply in_or_app. right. now left.
  - (* C1 settled *) eapply (tinv_same _ _ t _ _ _ I T); try reflexivity; [intros; assumption|].
    destruct r; exact Logic.I.
  - eapply (tinv_same _ _ t _ _ _ I T); try reflexivity;
      [intros c0 LT0 U0 K0; cbn in K0; destruct (upd_case (lock s) c (Some t) c0) as [(-> & UU)|(NE & UU)]; rewrite UU in K0; [discriminate|exact K0]|].
    cbn [tpc]. apply yields_app, (YD p (RVals vs)), PT.
  - eapply (tinv_same _ _ t _ _ _ I T); try reflexivity;
      [intros c0 LT0 U0 K0; cbn in K0; destruct (upd_case (lock s) c (Some t) c0) as [(-> & UU)|(NE & UU)]; rewrite UU in K0; [discriminate|exact K0]|].
    cbn [tpc]. apply yields_app, (YD p (RExc e0)), PT.
  - (* C4 *) destruct P as (P1 & P2 & P3 & P4). pose proof P1 as ((P1a & P1b & P1c) & PL & PU).
    eapply (tinv_move _ _ t (C5 p c r cc) _ _ I T).
    + intros; reflexivity.
    + intros u c0 NE LT Q. cbn. apply upd_other. congruence.
    + cbn [tpc]. auto.
    + intros p0 L. cbn. destruct (t_ptr _ _ T p0 L) as [Q|Q]; [left; exact Q|right].
      destruct (out s p0) eqn:O; [|congruence]. rewrite (x_out _ _ _ X _ _ L O). discriminate.
    + intros c0 L U K. cbn in L, U, K |- *. destruct (upd_case (cont s) c (set_code k (cont s c)) c0) as [(-> & UU)|(NE & UU)]; [congruence|].
      rewrite UU in *. destruct (t_code _ _ T c0) as (h1 & Q1 & Q2); auto. exists h1. split; auto. apply in_or_app; auto.
    + intros p0 y L O. apply yields_app, (t_out _ _ T); auto. unfold out in O |- *. cbn in O.
      destruct (upd_case (cont s) c (set_code k (cont s c)) (ptr s p0)) as [(E & UU)|(NE & UU)]; rewrite UU in O; auto.
      cbn in O. rewrite PU in O. discriminate.
  - (* C5 *) destruct P as (P1 & P2 & P3 & P4). eapply (tinv_same _ _ t _ _ _ I T); try reflexivity; [intros; assumption|].
    cbn [tpc]. destruct P3 as (P3 & S & O). split; [exact S|]. apply yields_app.
    destruct PT as (u & k & Q). eapply Y_prom; [exact Q|]. apply (t_out _ _ T); [apply P2|].
    cbn [cont set_th]. congruence.
  - (* CW *) destruct P as (P1 & P2). pose proof P1 as ((P1a & P1b & P1c) & PL & PU).
    eapply (tinv_move _ _ t (C6 p c v a) _ _ I T).
    + intros; reflexivity.
    + intros u c0 NE LT Q. cbn. apply upd_other. congruence.
    + cbn [tpc]. cbn [cont set_cont]. rewrite upd_same. cbn. split; [|now apply yields_app].
      destruct a; cbn in P2; [destruct P2; congruence| |destruct P2; congruence].
      destruct P2 as (_ & (_ & M2) & _). intros U. destruct (M2 U). discriminate.
    + intros p0 L. cbn. destruct (t_ptr _ _ T p0 L) as [Q|Q]; [left; exact Q|right].
      destruct (out s p0) eqn:O; [|congruence]. rewrite (x_out _ _ _ X _ _ L O). discriminate.
    + intros c0 L U K. cbn in L, U, K |- *. destruct (upd_case (cont s) c (set_code k (cont s c)) c0) as [(-> & UU)|(NE & UU)]; [congruence|].
      rewrite UU in *. destruct (t_code _ _ T c0) as (h1 & Q1 & Q2); auto. exists h1. split; auto. apply in_or_app; auto.
    + intros p0 y L O. apply yields_app, (t_out _ _ T); auto. unfold out in O |- *. cbn in O.
      destruct (upd_case (cont s) c (set_code k (cont s c)) (ptr s p0)) as [(E & UU)|(NE & UU)]; rewrite UU in O; auto.
      cbn in O. rewrite PU in O. discriminate.
  - (* C6 *) destruct P as (P1 & P2). pose proof P1 as ((P1a & P1b & P1c) & PL & PU). destruct PT as (PV & PY).
    eapply (tinv_move _ _ t (match a with AMove r => C7 p c r | _ => C8 p c a end) _ _ I T).
    + intros; reflexivity.
    + intros u c0 NE LT Q. cbn. apply upd_other. congruence.
    + destruct a; exact Logic.I.
    + intros p0 L. cbn. destruct (t_ptr _ _ T p0 L) as [Q|Q]; [left; exact Q|right].
      destruct (out s p0) eqn:O; [|congruence]. rewrite (x_out _ _ _ X _ _ L O). discriminate.
    + intros c0 L U K. cbn in L, U, K |- *. destruct (upd_case (cont s) c (set_state v (cont s c)) c0) as [(-> & UU)|(NE & UU)]; [congruence|].
      rewrite UU in *. destruct (t_code _ _ T c0) as (h1 & Q1 & Q2); auto. exists h1. split; auto. apply in_or_app; auto.
    + intros p0 y L O. cbn in L. apply yields_app. unfold out in O. cbn in O.
      destruct (upd_case (cont s) c (set_state v (cont s c)) (ptr s p0)) as [(E & UU)|(NE & UU)]; rewrite UU in O.
      * cbn in O. assert (p0 = p) as ->.
        { pose proof (own _ _ _ _ I T (proj1 P1) PU) as ->. destruct (t_ptr _ _ T p0 L) as [Q|Q]; [congruence|].
          exfalso. apply Q. unfold out. now rewrite E, PU. }
        destruct v; [congruence| |]; inversion O; subst; exact PY.
      * apply (t_out _ _ T); auto.
  - (* C7 *) destruct P as (P1 & PL & P2 & P3). 
    eapply (tinv_move _ _ t (C8 p c (AMove r)) _ _ I T).
    + intros; reflexivity.
    + intros; reflexivity.
    + exact Logic.I.
    + assert (S : sta (cont s c) <> Unforced) by (intros U; destruct P3 as (_ & P3); destruct (P3 U); discriminate).
      intros p0 L. destruct (Nat.eq_dec p0 r) as [->|NE].
      * right. destruct P3 as (P3 & _). rewrite (x_out _ _ _ X _ _ L (P3 S)). discriminate.
      * cbn. rewrite upd_other by auto. destruct (t_ptr _ _ T p0 L) as [Q|Q]; [left; exact Q|right].
        destruct (out s p0) eqn:O; [|congruence]. rewrite (x_out _ _ _ X _ _ L O). discriminate.
    + intros c0 L U K. destruct (t_code _ _ T c0 L U K) as (h1 & Q1 & Q2). exists h1. split; auto. apply in_or_app; auto.
    + assert (S : sta (cont s c) <> Unforced) by (intros U; destruct P3 as (_ & P3); destruct (P3 U); discriminate).
      intros p0 y L O. apply yields_app. apply (t_out _ _ T); auto. destruct (Nat.eq_dec p0 r) as [->|NE].
      * destruct P3 as (P3 & _). specialize (P3 S). pose proof (x_out _ _ _ X _ _ L P3). congruence.
      * unfold out in O |- *. cbn in O. rewrite upd_other in O by auto. exact O.
  - (* C8 *) destruct P as (P1 & PL & P2).
    assert (S : sta (cont s c) <> Unforced) by (destruct a; auto).
    eapply (tinv_same _ _ t _ _ _ I T); try reflexivity; [|destruct a; exact Logic.I].
    intros c0 LT U K. cbn in K. rewrite upd_other in K by congruence. exact K.
Qed.
Lemma exec_tinv ok s h : exec ok s h -> tame h -> tinv s h.
Proof.
  induction 1 as [|s h t e s' E IH O ST]; intro G.
  - split; cbn; intros; try lia; auto.
  - pose proof (tame_app _ _ G) as G2. destruct (exec_inv true ok _ _ E G2) as (I & D). eapply tinv_step; eauto.
    eapply (good_okm true ok); eauto.
Qed.
