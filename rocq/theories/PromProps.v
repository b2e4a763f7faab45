(** C54  Promises: forced once, under every schedule. *)
From Coq Require Import List Bool Arith Lia.
From Verif Require Import PromModel PromSpec PromProofs PromProofs2 PromProofs3.
Import ListNotations.

Lemma payload m ok s h p t k x t' k' x' : exec ok s h -> good m ok h ->
  In (EDone t p k x) h -> In (EDone t' p k' x') h -> x = x'.
Proof.
  intros E G A B. destruct (exec_inv _ _ _ _ E G) as (_ & _ & D).
  destruct (D _ _ _ _ A) as (_ & Q), (D _ _ _ _ B) as (_ & Q'). congruence.
Qed.
(** All forces of a promise that end deliver the same: when threads take turns in user code, whatever
    the thunks do and return; *)
Theorem promise_once_turns s h p t k x t' k' x' : exec turns s h ->
  In (EDone t p k x) h -> In (EDone t' p k' x') h -> x = x'.
Proof. intros E. apply (payload false turns s h); auto. cbn. auto. Qed.
(** and under every schedule, when thunks return values or settled promises, as with delay. *)
Theorem promise_once s h p t k x t' k' x' : exec any s h -> tame h ->
  In (EDone t p k x) h -> In (EDone t' p k' x') h -> x = x'.
Proof. intros E T. now apply (payload true any s h). Qed.
(** An eager promise delivers its values. *)
Theorem promise_eager s h p vs t k x : exec any s h -> tame h ->
  In (EEager p vs) h -> In (EDone t p k x) h -> x = CVals vs.
Proof.
  intros E T A B. destruct (exec_inv true any _ _ E T) as (_ & D1 & D2).
  destruct (D1 _ _ A) as (_ & Q), (D2 _ _ _ _ B) as (_ & Q'). congruence.
Qed.
(** What is returned is values.  What is raised is what a thunk raised, or else a run of the promise's thunk
    has raised. *)
Lemma ends m ok s h t p k x : exec ok s h -> good m ok h -> In (EDone t p k x) h ->
  (k = Return /\ exists vs, x = CVals vs) \/ (k = Raise /\ exists e, x = CExc e) \/
  (k = Raise /\ exists u k' e, In (EResult u p k' (RExc e)) h).
Proof. intros E G. apply (exec_kinv m ok s h E G). Qed.
Theorem promise_ends s h t p k x : exec any s h -> tame h -> In (EDone t p k x) h ->
  (k = Return /\ exists vs, x = CVals vs) \/ (k = Raise /\ exists e, x = CExc e) \/
  (k = Raise /\ exists u k' e, In (EResult u p k' (RExc e)) h).
Proof. intros E T. now apply (ends true any s). Qed.
Theorem promise_ends_turns s h t p k x : exec turns s h -> In (EDone t p k x) h ->
  (k = Return /\ exists vs, x = CVals vs) \/ (k = Raise /\ exists e, x = CExc e) \/
  (k = Raise /\ exists u k' e, In (EResult u p k' (RExc e)) h).
Proof. intros E. apply (ends false turns s); auto. cbn. auto. Qed.
(** So when no run of p's thunk raises, all forces of p that end return the same values, or all raise the
    same. *)
Theorem promise_same_end s h t p k x t' k' x' : exec any s h -> tame h ->
  (forall u c e, ~ In (EResult u p c (RExc e)) h) ->
  In (EDone t p k x) h -> In (EDone t' p k' x') h -> k = k' /\ x = x'.
Proof.
  intros E T N A B. pose proof (promise_once _ _ _ _ _ _ _ _ _ E T A B) as ->. split; auto.
  destruct (promise_ends _ _ _ _ _ _ E T A) as [(-> & vs & ->)|[(-> & e & ->)|(_ & u & c & e & Q)]]; [| |exfalso; eapply N; eauto].
  - destruct (promise_ends _ _ _ _ _ _ E T B) as [(-> & _)|[(_ & e & Q)|(_ & u & c & e & Q)]]; auto; [discriminate|exfalso; eapply N; eauto].
  - destruct (promise_ends _ _ _ _ _ _ E T B) as [(_ & e' & Q)|[(-> & _)|(_ & u & c & e' & Q)]]; auto; [discriminate|exfalso; eapply N; eauto].
Qed.
(** It is what p is made of: the values given to eager, or what a run of its thunk ended with. *)
Theorem promise_yields s h t p k x : exec any s h -> tame h -> In (EDone t p k x) h -> yields h p x.
Proof.
  intros E T A. destruct (exec_inv true any _ _ E T) as (_ & _ & D). destruct (D _ _ _ _ A) as (L & Q).
  exact (t_out _ _ (exec_tinv _ _ _ E T) _ _ L Q).
Qed.
(** After a promise is settled, its thunk is not run any more. *)
Lemma run_split ok s h : exec ok s h -> forall h1 t p k pr h2, h = h1 ++ ERun t p k pr :: h2 ->
  exists s1 s2, exec ok s1 h1 /\ ok s1 t /\ step s1 t [ERun t p k pr] s2.
Proof.
  induction 1 as [|s h t e s' E IH O ST]; intros h1 u p k pr h2 Q; [now apply app_cons_not_nil in Q|].
  assert (L : e = [] \/ exists x, e = [x]) by (inversion ST; subst; eauto).
  destruct L as [->|(x & ->)]; [rewrite app_nil_r in Q; eapply IH; eauto|].
  destruct h2 as [|y h2] using rev_ind.
  - apply app_inj_tail in Q. destruct Q as (-> & ->). assert (u = t) as -> by (inversion ST; auto). exists s, s'. auto.
  - rewrite app_comm_cons, app_assoc in Q. apply app_inj_tail in Q. destruct Q as (-> & _). eapply IH; eauto.
Qed.
Lemma not_again m ok s h1 t p k pr h2 : exec ok s (h1 ++ ERun t p k pr :: h2) -> good m ok (h1 ++ ERun t p k pr :: h2) ->
  ~ settled_in h1 p.
Proof.
  intros E G Q. destruct (run_split _ _ _ E _ _ _ _ _ _ eq_refl) as (s1 & s2 & E1 & O & ST).
  apply good_app in G. destruct (exec_inv _ _ _ _ E1 G) as (I & D). pose proof (settled_done _ _ _ D Q) as N.
  inversion ST; subst. pose proof (i_th _ _ I t) as P.
  match goal with TH : th s1 t = F3 _ _ |- _ => rewrite TH in P end. destruct P as (_ & _ & V).
  apply N. eapply vis_unforced; eauto.
Qed.
Theorem promise_not_again s h1 t p k pr h2 : exec any s (h1 ++ ERun t p k pr :: h2) -> tame (h1 ++ ERun t p k pr :: h2) ->
  ~ settled_in h1 p.
Proof. intros E T. now apply (not_again true any s h1 t p k pr h2). Qed.
Theorem promise_not_again_turns s h1 t p k pr h2 : exec turns s (h1 ++ ERun t p k pr :: h2) -> ~ settled_in h1 p.
Proof. intros E. apply (not_again false turns s h1 t p k pr h2); auto. cbn. auto. Qed.
(** A force runs the promise's own thunk, in the parameterization the promise was made in. *)
Theorem promise_parameterization s h t p k pr : exec any s h -> tame h -> In (ERun t p k pr) h ->
  exists h0, k = CThunk h0 /\ In (ENew p h0 pr) h.
Proof.
  intros E T A. apply in_split in A. destruct A as (h1 & h2 & ->).
  destruct (run_split _ _ _ E _ _ _ _ _ _ eq_refl) as (s1 & s2 & E1 & O & ST).
  apply tame_app in T. destruct (exec_inv true any _ _ E1 T) as (I & D). pose proof (exec_tinv _ _ _ E1 T) as TI.
  inversion ST; subst. pose proof (i_th _ _ I t) as P.
  match goal with TH : th s1 t = F3 _ _, LK : lock _ _ = None, SU : sta _ = Unforced |- _ => rename LK into LKK; rename SU into SUU; rewrite TH in P end. pose proof P as (_ & L & _).
  pose proof (own _ _ _ _ I TI P SUU) as ->. destruct (t_code _ _ TI c L SUU LKK) as (h0 & Q1 & Q2).
  exists h0. split; auto. apply in_or_app; auto.
Qed.
(** A settled promise is delivered without waiting: a thread that forces it needs three steps of its
    own. *)
Theorem promise_settled_delivers s h t p k x u : exec any s h -> tame h -> In (EDone t p k x) h -> th s u = Idle ->
  exists s1 s2 s3 s4 k', step s u [] s1 /\ step s1 u [] s2 /\ step s2 u [] s3 /\ step s3 u [EDone u p k' x] s4 /\ th s4 u = Idle.
Proof.
  intros E T A TU. destruct (exec_inv true any _ _ E T) as (I & _ & D). destruct (D _ _ _ _ A) as (L & Q).
  assert (S : sta (cont s (ptr s p)) <> Unforced) by (unfold out in Q; destruct (sta (cont s (ptr s p))); congruence).
  assert (x = code (cont s (ptr s p))) as -> by (unfold out in Q; destruct (sta (cont s (ptr s p))); congruence).
  exists (set_th u (F0 p) s), (set_th u (F1 p (ptr s p)) (set_th u (F0 p) s)),
    (set_th u (F2 p (ptr s p) (sta (cont s (ptr s p)))) (set_th u (F1 p (ptr s p)) (set_th u (F0 p) s))),
    (set_th u Idle (set_th u (F2 p (ptr s p) (sta (cont s (ptr s p)))) (set_th u (F1 p (ptr s p)) (set_th u (F0 p) s)))),
    (kind_of (sta (cont s (ptr s p)))).
  split; [apply S_force; auto|].
  split; [refine (S_F0 (set_th u (F0 p) s) u p _); cbn; apply upd_same|].
  split; [refine (S_F1_settled (set_th u (F1 p (ptr s p)) (set_th u (F0 p) s)) u p (ptr s p) _ S); cbn; apply upd_same|].
  split; [|cbn; apply upd_same].
  refine (S_F2 (set_th u (F2 p (ptr s p) (sta (cont s (ptr s p)))) (set_th u (F1 p (ptr s p)) (set_th u (F0 p) s))) u p (ptr s p) _ _). 
  cbn. apply upd_same.
Qed.

(** * What promises do not give *)
(** steps of thread 0 alone are turns *)
Lemma solo_turns s h : exec (fun _ t => t = 0) s h -> exec turns s h.
Proof.
  intros E. cut (exec turns s h /\ forall u, u <> 0 -> th s u = Idle); [tauto|].
  induction E as [|s h t e s' E (IH & Q) O ST]; [split; [constructor|auto]|]. subst t. split.
  - eapply E_step; eauto.
  - intros u NE. inversion ST; subst; cbn; auto; rewrite upd_other; auto.
Qed.
Lemma any_step s h t e s' : exec any s h -> step s t e s' -> exec any s' (h ++ e).
Proof. intros E ST. exact (E_step any s h t e s' E Logic.I ST). Qed.
Definition only0 : st -> tid -> Prop := fun _ t => t = 0.
Lemma zero_step s h e s' : exec only0 s h -> step s 0 e s' -> exec only0 s' (h ++ e).
Proof. intros E ST. exact (E_step only0 s h 0 e s' E eq_refl ST). Qed.
Local Ltac nx E w r :=
  first [eapply any_step with (t := w) in E|eapply zero_step in E];
  [|eapply r; cbn; try reflexivity; try discriminate; try lia; auto]; cbv -[any only0] in E.
Local Ltac run E w q := nx E w (fun s => S_force s w q); nx E w S_F0; nx E w S_F1_unforced; nx E w S_F3.
(** srfi-45's lazy with two threads: one thread forces p, whose thunk returns the unsettled promise r, while
    the other settles r.  The first copies r's code before and r's state after, and force returns a thunk
    as if it were a list of values. *)
Theorem promise_torn_refuted : exists s h, exec any s h /\ In (EDone 1 1 Return (CThunk 10)) h.
Proof.
  pose proof (E_init any) as E.
  nx E 1 (fun s => S_new s 1 10 0). nx E 1 (fun s => S_new s 1 11 0).
  run E 1 1. run E 2 0.
  nx E 1 (fun s => S_result s 1 1 (CThunk 11) (RProm 0)).
  nx E 1 S_C0. nx E 1 S_C1_prom. nx E 1 S_C2. nx E 1 S_C3.
  nx E 2 (fun s => S_result s 2 0 (CThunk 10) (RVals 5)).
  nx E 2 S_C0. nx E 2 S_C1_vals. nx E 2 S_CW. nx E 2 S_C6.
  nx E 1 S_C4. nx E 1 S_C5. nx E 1 S_C6. nx E 1 S_C7. nx E 1 S_C8.
  nx E 1 S_F0. nx E 1 S_F1_settled. nx E 1 S_F2.
  eexists _, _. split; [exact E|]. cbn. auto 20.
Qed.
(** and the same promise delivers different values: r is settled while it is being redirected. *)
Theorem promise_once_refuted : exists s h, exec any s h /\
  In (EDone 2 0 Return (CVals 5)) h /\ In (EDone 2 0 Return (CVals 6)) h.
Proof.
  pose proof (E_init any) as E.
  nx E 1 (fun s => S_new s 1 10 0). nx E 1 (fun s => S_new s 1 11 0).
  run E 1 1. run E 2 0.
  nx E 1 (fun s => S_result s 1 1 (CThunk 11) (RProm 0)).
  nx E 1 S_C0. nx E 1 S_C1_prom. nx E 1 S_C2. nx E 1 S_C3. nx E 1 S_C4. nx E 1 S_C5. nx E 1 S_C6.
  nx E 2 (fun s => S_result s 2 0 (CThunk 10) (RVals 5)).
  nx E 2 S_C0. nx E 2 S_C1_vals. nx E 2 S_CW. nx E 2 S_C6. nx E 2 S_C8. nx E 2 S_F0. nx E 2 S_F1_settled. nx E 2 S_F2.
  nx E 1 S_C7. nx E 1 S_C8. nx E 1 S_F0. nx E 1 S_F1_unforced. nx E 1 S_F3.
  nx E 1 (fun s => S_result s 1 1 (CThunk 10) (RVals 6)).
  nx E 1 S_C0. nx E 1 S_C1_vals. nx E 1 S_CW. nx E 1 S_C6. nx E 1 S_C8. nx E 1 S_F0. nx E 1 S_F1_settled. nx E 1 S_F2.
  nx E 2 (fun s => S_force s 2 0). nx E 2 S_F0. nx E 2 S_F1_settled. nx E 2 S_F2.
  eexists _, _. split; [exact E|]. cbn. auto 20.
Qed.
(** One thread: the thunk of p forces p, which settles it with values, and then raises.  The outer force
    raises the list of the values instead of the exception. *)
Theorem promise_raise_refuted : exists s h, exec turns s h /\ tame h /\
  In (EDone 0 0 Return (CVals 5)) h /\ In (EResult 0 0 (CThunk 10) (RExc 7)) h /\ In (EDone 0 0 Raise (CVals 5)) h.
Proof.
  pose proof (E_init only0) as E.
  nx E 0 (fun s => S_new s 0 10 0). run E 0 0. run E 0 0.
  nx E 0 (fun s => S_result s 0 0 (CThunk 10) (RVals 5)).
  nx E 0 S_C0. nx E 0 S_C1_vals. nx E 0 S_CW. nx E 0 S_C6. nx E 0 S_C8. nx E 0 S_F0. nx E 0 S_F1_settled. nx E 0 S_F2.
  nx E 0 (fun s => S_result s 0 0 (CThunk 10) (RExc 7)).
  nx E 0 S_C0. nx E 0 S_C1_settled. nx E 0 S_H4.
  eexists _, _. split; [apply solo_turns; exact E|]. split; [|cbn; auto 20].
  intros h1 t p k r h2 Q. assert (In (EResult t p k (RProm r)) (h1 ++ EResult t p k (RProm r) :: h2)) as I by (apply in_or_app; right; now left).
  rewrite <- Q in I. cbn in I. intuition discriminate.
Qed.
(** One thread: p's thunk returns the unsettled promise r, made in another parameterization; r's thunk is
    run in p's. *)
Theorem promise_parameterization_refuted : exists s h, exec turns s h /\
  In (ENew 0 10 1) h /\ In (ERun 0 1 (CThunk 10) 2) h /\ (forall p pr, In (ENew p 10 pr) h -> p = 0 /\ pr = 1).
Proof.
  pose proof (E_init only0) as E.
  nx E 0 (fun s => S_new s 0 10 1). nx E 0 (fun s => S_new s 0 11 2). run E 0 1.
  nx E 0 (fun s => S_result s 0 1 (CThunk 11) (RProm 0)).
  nx E 0 S_C0. nx E 0 S_C1_prom. nx E 0 S_C2. nx E 0 S_C3. nx E 0 S_C4. nx E 0 S_C5. nx E 0 S_C6. nx E 0 S_C7. nx E 0 S_C8.
  nx E 0 S_F0. nx E 0 S_F1_unforced. nx E 0 S_F3.
  eexists _, _. split; [apply solo_turns; exact E|]. split; [cbn; auto|]. split; [cbn; auto 20|].
  intros p pr I. cbn in I. intuition; try discriminate; match goal with Q : ENew _ _ _ = _ |- _ => inversion Q; auto end.
Qed.

(** * Concrete cases *)
(** delay: two threads force the same promise, the thunk runs twice with different results, both get the
    first *)
Example promise_race : exists s h, exec any s h /\ tame h /\
  In (EResult 1 0 (CThunk 10) (RProm 1)) h /\ In (EResult 2 0 (CThunk 10) (RProm 2)) h /\
  In (EEager 1 5) h /\ In (EEager 2 6) h /\
  In (EDone 1 0 Return (CVals 6)) h /\ In (EDone 2 0 Return (CVals 6)) h.
Proof.
  pose proof (E_init any) as E.
  nx E 1 (fun s => S_new s 1 10 0). run E 1 0. run E 2 0.
  nx E 1 (fun s => S_eager s 1 5). nx E 2 (fun s => S_eager s 2 6).
  nx E 1 (fun s => S_result s 1 0 (CThunk 10) (RProm 1)). nx E 2 (fun s => S_result s 2 0 (CThunk 10) (RProm 2)).
  nx E 1 S_C0. nx E 2 S_C0. nx E 2 S_C1_prom. nx E 2 S_C2. nx E 2 S_C3. nx E 2 S_C4. nx E 2 S_C5. nx E 2 S_C6. nx E 2 S_C7. nx E 2 S_C8.
  nx E 1 S_C1_settled. nx E 1 S_F0. nx E 2 S_F0. nx E 1 S_F1_settled. nx E 1 S_F2. nx E 2 S_F1_settled. nx E 2 S_F2.
  eexists _, _. split; [exact E|]. split; [|cbn; auto 20].
  intros h1 t p k r h2 Q. left.
  do 12 (destruct h1 as [|? h1]; [cbn in Q; inversion Q; subst; cbn; eauto 20; fail|cbn in Q; inversion Q; subst; clear Q;
    match goal with Q : _ = h1 ++ _ |- _ => rename Q into Q' end; rename Q' into Q]).
Qed.

Print Assumptions promise_once_turns.
Print Assumptions promise_once.
Print Assumptions promise_eager.
Print Assumptions promise_ends.
Print Assumptions promise_ends_turns.
Print Assumptions promise_same_end.
Print Assumptions promise_yields.
Print Assumptions promise_not_again.
Print Assumptions promise_not_again_turns.
Print Assumptions promise_parameterization.
Print Assumptions promise_settled_delivers.
Print Assumptions promise_torn_refuted.
Print Assumptions promise_once_refuted.
Print Assumptions promise_raise_refuted.
Print Assumptions promise_parameterization_refuted.
