From Coq Require Import List Bool ZArith Lia PeanoNat Permutation.
From Verif Require Import QueueModel QueueSpec QueueProps MtQueueModel MtQueueSpec MtQueueProofs.
Import ListNotations.
Local Open Scope Z_scope.
Ltac Zify.zify_post_hook ::= idtac.
Section P.
Context {V : Type}.
Notation st := (st V).
(** what a step of t does to the other threads *)
Lemma notify_other r (s : st) k : th (notify r s) k = th s k \/ exists w b, th s k = Waiting w b /\ th (notify r s) k = Waiting w true.
Proof. rewrite th_notify. destruct (th s k) as [| |w b| | | | | |]; auto. destruct (Bool.eqb (is_take w) r); eauto. Qed.
Lemma take_th (s : st) : th (fst (take s)) = th s.
Proof. unfold take. destruct (skip_markers (content s)) as [|[v|] c]; reflexivity. Qed.
Lemma step_other t a (s s' : st) es k : step t a s = Some (s', es) -> k <> t ->
  th s' k = th s k \/ exists w b, th s k = Waiting w b /\ th s' k = Waiting w true.
Proof.
  intros E N. unfold step in E. apply Nat.eqb_neq in N.
  destruct a as [o|w| | | | | | |b| | | | |n]; destruct (th s t) as [|w0|w0 wk| |b0|b0 sn|b0 sn| |] eqn:ET; try discriminate.
  - destruct (free s); [|discriminate]. injection E as E. destruct o as [front x more| | | |]; cbn [light] in E.
    + destruct (closed s); [injection E as <- <-; auto|]. destruct (overflows s _); injection E as <- <-; [auto|]. apply (notify_other true (put front (map Some (x :: more)) s)).
    + pose proof (take_th s) as TT. destruct (take s) as [s1 [v|]]; injection E as <- <-; cbn [fst] in TT; rewrite ?th_set, ?N, TT; auto.
    + cbn in E. injection E as <- <-. cbn. rewrite N. auto.
    + injection E as <- <-; auto.
    + injection E as <- <-; auto.
  - injection E as E. destruct w as [front x close iferr tm|close tm]; cbn [init] in E.
    + destruct (closed s); injection E as <- <-; [auto|]. cbn. rewrite N. auto.
    + injection E as <- <-. rewrite th_set, N. destruct close; [apply (notify_other false (set_closed true (set_sem (sem s + 1) s)))|apply (notify_other false (set_sem (sem s + 1) s))].
  - destruct (free s); [|discriminate]. destruct (wait_check s w0); [injection E as <- <-; cbn; rewrite N; auto|]. injection E as E.
    destruct w0 as [front x close iferr tm|close tm]; cbn [do_ok] in E.
    + injection E as <- <-. rewrite th_set, N. destruct close; [apply (notify_other true (set_closed true (put front [x] s)))|apply (notify_other true (put front [x] s))].
    + pose proof (take_th (set_sem (sem s - 1) s)) as TT. destruct (take (set_sem (sem s - 1) s)) as [s1 r]. cbn [fst] in TT. injection E as <- <-. rewrite th_set, N.
      pose proof (notify_other false s1 k) as H. rewrite TT in H. exact H.
  - destruct wk; [|discriminate]. injection E as <- <-. cbn. rewrite N. auto.
  - destruct wk; [discriminate|]. injection E as <- <-. cbn. rewrite N. auto.
  - destruct (timed w0); [|discriminate]. injection E as <- <-. cbn. rewrite N. auto.
  - destruct (timed w0); [|discriminate]. injection E as <- <-. cbn. rewrite N. auto.
  - injection E as <- <-. rewrite th_set, N. apply notify_other.
  - destruct (is_remove b0 sn); [|discriminate]. injection E as <- <-. rewrite th_set, N. apply notify_other.
  - injection E as <- <-. rewrite th_set, N. apply notify_other.
  - destruct (free s); [|discriminate]. injection E as <- <-. cbn. rewrite N. auto.
  - injection E as <- <-. cbn. rewrite N. auto.
  - destruct (is_remove b0 sn); [discriminate|]. injection E as E. destruct b0 as [front cmp x more|pred| |pred]; cbn [big_write] in E.
    + destruct (if front then _ else _) as [|y ys]; [injection E as <- <-; cbn; rewrite N; auto|].
      destruct (overflows s _); injection E as <- <-; cbn; rewrite N; auto.
    + injection E as <- <-. cbn. rewrite N. auto.
    + injection E as <- <-. cbn. rewrite N. auto.
    + injection E as <- <-. cbn. rewrite N. auto.
  - destruct (is_remove b0 sn); [|discriminate]. injection E as <- <-. cbn. rewrite N. auto.
  - injection E as <- <-. cbn. rewrite N. auto.
  - injection E as <- <-. cbn. rewrite N. auto.
  - injection E as <- <-. auto.
Qed.
Lemma notify_woken r (s : st) k w : th (notify r s) k = Waiting w false -> Bool.eqb (is_take w) r = false.
Proof. rewrite th_notify. destruct (th s k) as [| |w' b| | | | | |]; try discriminate. destruct (Bool.eqb (is_take w') r) eqn:E; [discriminate|]. intros H. injection H as -> ->. exact E. Qed.
(** readers *)
Definition RI (s : st) : Prop := forall t w, th s t = Waiting w false -> is_take w = true -> content s = [] \/ exists k, th s k = BNotifyR.
Lemma step_reader t a s s' es : Inv s -> RI s -> (match a with ATimeout | AIntr => locker s = None | _ => True end) -> step t a s = Some (s', es) -> RI s'.
Proof.
  intros I R Q E k w Hk Hw. pose proof (fun j => step_other t a s s' es j E) as SO. pose proof I as [IA IB].
  unfold step in E.
  destruct (Nat.eq_dec k t) as [->|N].
  - (* t itself starts to wait *)
    left. destruct a as [o|w1| | | | | | |b| | | | |n]; destruct (th s t) as [|w0|w0 wk| |b0|b0 sn|b0 sn| |] eqn:ET; try discriminate;
      try (injection E as <- <-; cbn in Hk; rewrite ?Nat.eqb_refl in Hk; discriminate).
    + destruct (free s); [|discriminate]. injection E as E. exfalso. destruct o as [front x more| | | |]; cbn [light] in E.
      * destruct (closed s); [injection E as <- <-; congruence|]. destruct (overflows s _); injection E as <- <-; [congruence|]. rewrite th_notify in Hk. cbn in Hk. rewrite ET in Hk. discriminate.
      * pose proof (take_th s) as TT. destruct (take s) as [s1 [v|]]; injection E as <- <-; cbn [fst] in TT; [rewrite th_set, Nat.eqb_refl in Hk; discriminate|congruence].
      * cbn in E. injection E as <- <-. cbn in Hk. rewrite Nat.eqb_refl in Hk. discriminate.
      * injection E as <- <-. congruence.
      * injection E as <- <-. congruence.
    + injection E as E. exfalso. destruct w1 as [front x close iferr tm|close tm]; cbn [init] in E.
      * destruct (closed s); injection E as <- <-; [congruence|]. cbn in Hk. rewrite Nat.eqb_refl in Hk. discriminate.
      * injection E as <- <-. cbn in Hk. rewrite Nat.eqb_refl in Hk. discriminate.
    + destruct (free s); [|discriminate]. destruct (wait_check s w0) eqn:WC.
      * injection E as <- <-. cbn in Hk. rewrite Nat.eqb_refl in Hk. injection Hk as ->. cbn [content set_th].
        destruct w as [|c2 t2]; [discriminate|]. cbn [wait_check] in WC. destruct (content s); [reflexivity|discriminate].
      * injection E as E. exfalso. destruct w0 as [front x close iferr tm|close tm]; cbn [do_ok] in E.
        -- injection E as <- <-. cbn in Hk. rewrite Nat.eqb_refl in Hk. discriminate.
        -- destruct (take _) as [s1 r]. injection E as <- <-. cbn in Hk. rewrite Nat.eqb_refl in Hk. discriminate.
    + destruct wk; [|discriminate]. injection E as <- <-. cbn in Hk. rewrite Nat.eqb_refl in Hk. discriminate.
    + destruct wk; [discriminate|]. injection E as <- <-. cbn in Hk. rewrite Nat.eqb_refl in Hk. discriminate.
    + destruct (timed w0); [|discriminate]. injection E as <- <-. cbn in Hk. rewrite Nat.eqb_refl in Hk. discriminate.
    + destruct (timed w0); [|discriminate]. injection E as <- <-. cbn in Hk. rewrite Nat.eqb_refl in Hk. discriminate.
    + destruct (is_remove b0 sn); [|discriminate]. injection E as <- <-. cbn in Hk. rewrite Nat.eqb_refl in Hk. discriminate.
    + destruct (free s); [|discriminate]. injection E as <- <-. cbn in Hk. rewrite Nat.eqb_refl in Hk. discriminate.
    + destruct (is_remove b0 sn); [discriminate|]. injection E as E. exfalso. destruct b0 as [front cmp x more|pred| |pred]; cbn [big_write] in E.
      * destruct (if front then _ else _) as [|y ys]; [|destruct (overflows s _)]; injection E as <- <-; cbn in Hk; rewrite Nat.eqb_refl in Hk; discriminate.
      * injection E as <- <-. cbn in Hk. rewrite Nat.eqb_refl in Hk. discriminate.
      * injection E as <- <-. cbn in Hk. rewrite Nat.eqb_refl in Hk. discriminate.
      * injection E as <- <-. cbn in Hk. rewrite Nat.eqb_refl in Hk. discriminate.
    + destruct (is_remove b0 sn); [|discriminate]. injection E as <- <-. cbn in Hk. rewrite Nat.eqb_refl in Hk. discriminate.
    + injection E as <- <-. cbn in Hk. congruence.
  - assert (Hk0 : th s k = Waiting w false).
    { destruct (SO k N) as [H|(w1 & b & H & H')]; congruence. }
    destruct (R k w Hk0 Hw) as [C0|(j & Hj)].
    2:{ destruct (Nat.eq_dec j t) as [->|Nj].
        - exfalso. rewrite Hj in E. destruct a; try discriminate. injection E as <- <-. rewrite th_set, (proj2 (Nat.eqb_neq _ _) N) in Hk.
          apply notify_woken in Hk. rewrite Hw in Hk. discriminate.
        - right. exists j. destruct (SO j Nj) as [H|(w1 & b & H & H')]; congruence. }
    (* the content was empty *)
    destruct a as [o|w1| | | | | | |b| | | | |n]; destruct (th s t) as [|w0|w0 wk| |b0|b0 sn|b0 sn| |] eqn:ET; try discriminate;
      try (injection E as <- <-; left; exact C0).
    + destruct (free s); [|discriminate]. injection E as E. destruct o as [front x more| | | |]; cbn [light] in E.
      * destruct (closed s); [injection E as <- <-; auto|]. destruct (overflows s _); injection E as <- <-; [auto|].
        apply notify_woken in Hk. rewrite Hw in Hk. discriminate.
      * unfold take in E. rewrite C0 in E. cbn in E. injection E as <- <-. now left.
      * cbn in E. injection E as <- <-. now left.
      * injection E as <- <-. auto.
      * injection E as <- <-. auto.
    + injection E as E. left. destruct w1 as [front x close iferr tm|close tm]; cbn [init] in E.
      * destruct (closed s); injection E as <- <-; exact C0.
      * injection E as <- <-. destruct close; exact C0.
    + destruct (free s); [|discriminate]. destruct (wait_check s w0) eqn:WC; [injection E as <- <-; left; exact C0|].
      injection E as E. destruct w0 as [front x close iferr tm|close tm]; cbn [do_ok] in E.
      * injection E as <- <-. rewrite th_set, (proj2 (Nat.eqb_neq _ _) N) in Hk. apply notify_woken in Hk. rewrite Hw in Hk. discriminate.
      * cbn [wait_check] in WC. rewrite C0 in WC. discriminate.
    + destruct wk; [|discriminate]. injection E as <- <-. left; exact C0.
    + destruct wk; [discriminate|]. injection E as <- <-. left; exact C0.
    + destruct (timed w0); [|discriminate]. injection E as <- <-. left; exact C0.
    + destruct (timed w0); [|discriminate]. injection E as <- <-. left; exact C0.
    + destruct (is_remove b0 sn); [|discriminate]. injection E as <- <-. left; exact C0.
    + destruct (free s); [|discriminate]. injection E as <- <-. left; exact C0.
    + destruct (is_remove b0 sn); [discriminate|]. injection E as E. destruct b0 as [front cmp x more|pred| |pred]; cbn [big_write] in E.
      * destruct (if front then _ else _) as [|y ys]; [injection E as <- <-; left; exact C0|destruct (overflows s _); injection E as <- <-; [left; exact C0|right]].
        exists t. cbn. now rewrite Nat.eqb_refl.
      * injection E as <- <-. left; exact C0.
      * injection E as <- <-. left; exact C0.
      * injection E as <- <-. left; exact C0.
    + assert (SN : sn = content s) by (apply (IB t); now rewrite ET). rewrite SN, C0 in E. destruct b0; discriminate.
Qed.
(** writers *)
Definition full (s : st) : Prop := if maxlen s =? 0 then sem s = 0 else overflows s 1 = true.
Definition WI (s : st) : Prop := forall t w, th s t = Waiting w false -> is_take w = false ->
  (full s \/ exists k, th s k = NotifyW) /\ forall k b sn, th s k <> BNoted b sn.
Lemma full_check (s : st) w : is_take w = false -> wait_check s w = true -> full s.
Proof. destruct w as [|]; [|discriminate]. intros _. unfold full. cbn [wait_check]. destruct (Z.eqb_spec (maxlen s) 0); cbn [negb]; [apply Z.eqb_eq|auto]. Qed.
Lemma full_grow (s s' : st) : maxlen s' = maxlen s -> sem s' = sem s -> (List.length (content s) <= List.length (content s'))%nat -> full s -> full s'.
Proof.
  unfold full, overflows, length. intros -> -> L. destruct (maxlen s =? 0); [auto|]. rewrite !andb_true_iff, Z.leb_le, !Z.ltb_lt. lia.
Qed.
Lemma put_len front xs (s : st) : (List.length (content s) <= List.length (content (put front xs s)))%nat.
Proof. destruct front; cbn; rewrite app_length; lia. Qed.
Definition clean (c : list (option V)) : Prop := ~ In None c.
Lemma clean_vis c : clean c -> visible c = [] -> c = [].
Proof. destruct c as [|[v|] r]; [auto|discriminate|]. intros H. exfalso. apply H. now left. Qed.
Lemma step_writer t a s s' es : Inv s -> WI s -> clean (content s) -> (match a with ATimeout | AIntr => locker s = None | ASetMax _ => False | _ => True end) ->
  step t a s = Some (s', es) -> WI s'.
Proof.
  intros I R CL Q E k w Hk Hw. pose proof (fun j => step_other t a s s' es j E) as SO. pose proof I as [IA IB].
  assert (FREE : free s = true -> forall j b sn, th s j <> BNoted b sn).
  { unfold free. intros F j b sn H. assert (X : locker s = Some j) by (apply IA; now rewrite H). rewrite X in F. discriminate. }
  unfold step in E.
  assert (NB : (forall j b sn, th s j <> BNoted b sn) -> (forall b sn, th s' t <> BNoted b sn) -> forall j b sn, th s' j <> BNoted b sn).
  { intros A B j b sn H. destruct (Nat.eq_dec j t) as [->|Nj]; [eapply B; eassumption|]. destruct (SO j Nj) as [H1|(w1 & b1 & H1 & H2)]; [|congruence]. eapply A. rewrite <- H1. eassumption. }
  destruct (Nat.eq_dec k t) as [->|N].
  - assert (B : forall b sn, th s' t <> BNoted b sn) by congruence.
    destruct a as [o|w1| | | | | | |b| | | | |n]; destruct (th s t) as [|w0|w0 wk| |b0|b0 sn|b0 sn| |] eqn:ET; try discriminate;
      try (injection E as <- <-; cbn in Hk; rewrite ?Nat.eqb_refl in Hk; discriminate).
    + destruct (free s); [|discriminate]. injection E as E. exfalso. destruct o as [front x more| | | |]; cbn [light] in E.
      * destruct (closed s); [injection E as <- <-; congruence|]. destruct (overflows s _); injection E as <- <-; [congruence|]. rewrite th_notify in Hk. cbn in Hk. rewrite ET in Hk. discriminate.
      * pose proof (take_th s) as TT. destruct (take s) as [s1 [v|]]; injection E as <- <-; cbn [fst] in TT; [rewrite th_set, Nat.eqb_refl in Hk; discriminate|congruence].
      * cbn in E. injection E as <- <-. cbn in Hk. rewrite Nat.eqb_refl in Hk. discriminate.
      * injection E as <- <-. congruence.
      * injection E as <- <-. congruence.
    + injection E as E. exfalso. destruct w1 as [front x close iferr tm|close tm]; cbn [init] in E.
      * destruct (closed s); injection E as <- <-; [congruence|]. cbn in Hk. rewrite Nat.eqb_refl in Hk. discriminate.
      * injection E as <- <-. cbn in Hk. rewrite Nat.eqb_refl in Hk. discriminate.
    + destruct (free s) eqn:FR; [|discriminate]. destruct (wait_check s w0) eqn:WC.
      * injection E as <- <-. pose proof Hk as Hk'. cbn in Hk'. rewrite Nat.eqb_refl in Hk'. injection Hk' as ->. split; [left|].
        -- apply (full_check s w Hw) in WC. exact WC.
        -- apply NB; [now apply FREE|assumption].
      * injection E as E. exfalso. destruct w0 as [front x close iferr tm|close tm]; cbn [do_ok] in E.
        -- injection E as <- <-. cbn in Hk. rewrite Nat.eqb_refl in Hk. discriminate.
        -- destruct (take _) as [s1 r]. injection E as <- <-. cbn in Hk. rewrite Nat.eqb_refl in Hk. discriminate.
    + destruct wk; [|discriminate]. injection E as <- <-. cbn in Hk. rewrite Nat.eqb_refl in Hk. discriminate.
    + destruct wk; [discriminate|]. injection E as <- <-. cbn in Hk. rewrite Nat.eqb_refl in Hk. discriminate.
    + destruct (timed w0); [|discriminate]. injection E as <- <-. cbn in Hk. rewrite Nat.eqb_refl in Hk. discriminate.
    + destruct (timed w0); [|discriminate]. injection E as <- <-. cbn in Hk. rewrite Nat.eqb_refl in Hk. discriminate.
    + destruct (is_remove b0 sn); [|discriminate]. injection E as <- <-. cbn in Hk. rewrite Nat.eqb_refl in Hk. discriminate.
    + destruct (free s); [|discriminate]. injection E as <- <-. cbn in Hk. rewrite Nat.eqb_refl in Hk. discriminate.
    + destruct (is_remove b0 sn); [discriminate|]. injection E as E. exfalso. destruct b0 as [front cmp x more|pred| |pred]; cbn [big_write] in E.
      * destruct (if front then _ else _) as [|y ys]; [|destruct (overflows s _)]; injection E as <- <-; cbn in Hk; rewrite Nat.eqb_refl in Hk; discriminate.
      * injection E as <- <-. cbn in Hk. rewrite Nat.eqb_refl in Hk. discriminate.
      * injection E as <- <-. cbn in Hk. rewrite Nat.eqb_refl in Hk. discriminate.
      * injection E as <- <-. cbn in Hk. rewrite Nat.eqb_refl in Hk. discriminate.
    + destruct (is_remove b0 sn); [|discriminate]. injection E as <- <-. cbn in Hk. rewrite Nat.eqb_refl in Hk. discriminate.
    + contradiction.
  - assert (Hk0 : th s k = Waiting w false).
    { destruct (SO k N) as [H|(w1 & b & H & H')]; congruence. }
    destruct (R k w Hk0 Hw) as [C0 B0]. specialize (NB B0).
    assert (MV : forall j, j <> t -> th s j = NotifyW -> th s' j = NotifyW).
    { intros j Nj Hj. destruct (SO j Nj) as [H|(w1 & b & H & H')]; congruence. }
    assert (KEEP : th s t <> NotifyW -> (full s -> full s') -> full s' \/ exists j, th s' j = NotifyW).
    { intros A F. destruct C0 as [C0|(j & Hj)]; [left; auto|]. destruct (Nat.eq_dec j t) as [->|Nj]; [contradiction|]. right. eauto. }
    assert (NK : forall s0, s' = set_th t Idle (notify false s0) -> False).
    { intros s0 ->. rewrite th_set, (proj2 (Nat.eqb_neq _ _) N) in Hk. apply notify_woken in Hk. rewrite Hw in Hk. discriminate. }
    destruct a as [o|w1| | | | | | |b| | | | |n]; destruct (th s t) as [|w0|w0 wk| |b0|b0 sn|b0 sn| |] eqn:ET; try discriminate.
    + destruct (free s); [|discriminate]. injection E as E. destruct o as [front x more| | | |]; cbn [light] in E.
      * destruct (closed s); [injection E as <- <-; split; [apply KEEP; [discriminate|auto]|apply NB; congruence]|].
        destruct (overflows s _); injection E as <- <-; (split; [apply KEEP; [discriminate|]|apply NB]); auto; try congruence.
        -- apply full_grow; [reflexivity|reflexivity|]. apply (put_len front (map Some (x :: more))).
        -- intros b sn. rewrite th_notify. cbn. rewrite ET. discriminate.
      * destruct (take s) as [s1 r] eqn:TK. destruct (take_spec _ _ _ TK) as ((T1 & T2 & T3 & T4 & T5) & TR). destruct r as [v|]; injection E as <- <-.
        -- split; [right; exists t; cbn; now rewrite Nat.eqb_refl|]. apply NB. cbn. rewrite Nat.eqb_refl. discriminate.
        -- destruct TR as [TV TC]. split; [apply KEEP; [discriminate|]|apply NB; congruence].
           apply full_grow; [assumption|assumption|]. rewrite (clean_vis _ CL TV). cbn. lia.
      * cbn in E. injection E as <- <-. split; [right; exists t; cbn; now rewrite Nat.eqb_refl|]. apply NB. cbn. rewrite Nat.eqb_refl. discriminate.
      * injection E as <- <-; split; [apply KEEP; [discriminate|auto]|apply NB; congruence].
      * injection E as <- <-; split; [apply KEEP; [discriminate|auto]|apply NB; congruence].
    + injection E as E. destruct w1 as [front x close iferr tm|close tm]; cbn [init] in E.
      * destruct (closed s); injection E as <- <-; (split; [apply KEEP; [discriminate|auto]|apply NB]); [congruence|]. cbn. rewrite Nat.eqb_refl. discriminate.
      * injection E as <- <-. exfalso. rewrite th_set, (proj2 (Nat.eqb_neq _ _) N) in Hk. apply notify_woken in Hk. rewrite Hw in Hk. discriminate.
    + destruct (free s); [|discriminate]. destruct (wait_check s w0) eqn:WC.
      { injection E as <- <-; split; [apply KEEP; [discriminate|auto]|apply NB; cbn; rewrite Nat.eqb_refl; discriminate]. }
      injection E as E. destruct w0 as [front x close iferr tm|close tm]; cbn [do_ok] in E.
      * injection E as <- <-; split; [apply KEEP; [discriminate|]|apply NB; cbn; rewrite Nat.eqb_refl; discriminate].
        apply full_grow; [destruct close; reflexivity|destruct close; reflexivity|]. destruct close; apply (put_len front [x]).
      * destruct (take _) as [s1 r]. injection E as <- <-. exfalso. now apply (NK s1).
    + destruct wk; [|discriminate]. injection E as <- <-; split; [apply KEEP; [discriminate|auto]|apply NB; cbn; rewrite Nat.eqb_refl; discriminate].
    + destruct wk; [discriminate|]. injection E as <- <-; split; [apply KEEP; [discriminate|auto]|apply NB; cbn; rewrite Nat.eqb_refl; discriminate].
    + destruct (timed w0); [|discriminate]. injection E as <- <-; split; [apply KEEP; [discriminate|auto]|apply NB; cbn; rewrite Nat.eqb_refl; discriminate].
    + destruct (timed w0); [|discriminate]. injection E as <- <-; split; [apply KEEP; [discriminate|auto]|apply NB; cbn; rewrite Nat.eqb_refl; discriminate].
    + injection E as <- <-. exfalso. now apply (NK s).
    + destruct (is_remove b0 sn); [|discriminate]. injection E as <- <-. exfalso. rewrite th_set, (proj2 (Nat.eqb_neq _ _) N) in Hk. apply notify_woken in Hk. rewrite Hw in Hk. discriminate.
    + injection E as <- <-; split; [apply KEEP; [discriminate|auto]|apply NB; cbn; rewrite Nat.eqb_refl; discriminate].
    + destruct (free s); [|discriminate]. injection E as <- <-; split; [apply KEEP; [discriminate|auto]|apply NB; cbn; rewrite Nat.eqb_refl; discriminate].
    + injection E as <- <-; split; [apply KEEP; [discriminate|auto]|apply NB; cbn; rewrite Nat.eqb_refl; discriminate].
    + assert (SN : sn = content s) by (apply (IB t); now rewrite ET).
      destruct (is_remove b0 sn); [discriminate|]. injection E as E. destruct b0 as [front cmp x more|pred| |pred]; cbn [big_write] in E.
      * destruct (if front then _ else _) as [|y ys] eqn:EN; [|destruct (overflows s _)]; injection E as <- <-; (split; [apply KEEP; [discriminate|]|apply NB; cbn; rewrite Nat.eqb_refl; discriminate]); auto.
        apply full_grow; [reflexivity|reflexivity|]. cbn [content set_th set_content]. destruct front; [rewrite SN; cbn [List.length]|]; rewrite app_length; lia.
      * injection E as <- <-; split; [apply KEEP; [discriminate|auto]|apply NB; cbn; rewrite Nat.eqb_refl; discriminate].
      * injection E as <- <-; split; [apply KEEP; [discriminate|auto]|apply NB; cbn; rewrite Nat.eqb_refl; discriminate].
      * injection E as <- <-; split; [apply KEEP; [discriminate|auto]|apply NB; cbn; rewrite Nat.eqb_refl; discriminate].
    + exfalso. eapply B0. exact ET.
    + injection E as <- <-; split; [apply KEEP; [discriminate|auto]|apply NB; cbn; rewrite Nat.eqb_refl; discriminate].
    + injection E as <- <-; split; [apply KEEP; [discriminate|auto]|apply NB; cbn; rewrite Nat.eqb_refl; discriminate].
    + contradiction.
Qed.
(** the count of readers *)
Definition reading (x : tstate (V := V)) : bool := match x with Pend w | Waiting w _ => is_take w | _ => false end.
Definition SI (s : st) : Prop := exists ls, NoDup ls /\ (forall k, In k ls <-> reading (th s k) = true) /\ sem s = Z.of_nat (List.length ls).
Lemma reading_notify r (s : st) k : reading (th (notify r s) k) = reading (th s k).
Proof. rewrite th_notify. destruct (th s k) as [| |w b| | | | | |]; try reflexivity. now destruct (Bool.eqb (is_take w) r). Qed.
Lemma si_same s s' t : SI s -> (forall k, k <> t -> reading (th s' k) = reading (th s k)) -> reading (th s' t) = reading (th s t) -> sem s' = sem s -> SI s'.
Proof.
  intros (ls & N & A & L) O T S. exists ls. split; [assumption|]. split; [|congruence]. intros k. rewrite A.
  destruct (Nat.eq_dec k t) as [->|Nk]; [now rewrite T|now rewrite O].
Qed.
Lemma step_sem t a s s' es : SI s -> a <> ATimeout -> step t a s = Some (s', es) -> SI s'.
Proof.
  intros I NT E.
  assert (O : forall k, k <> t -> reading (th s' k) = reading (th s k)).
  { intros k N. destruct (step_other _ _ _ _ _ _ E N) as [->|(w & b & -> & ->)]; reflexivity. }
  unfold step in E.
  destruct a as [o|w| | | | | | |b| | | | |n]; destruct (th s t) as [|w0|w0 wk| |b0|b0 sn|b0 sn| |] eqn:ET; try discriminate; try congruence.
  - destruct (free s); [|discriminate]. injection E as E. apply (si_same s s' t I O).
    + rewrite ET. destruct o as [front x more| | | |]; cbn [light] in E.
      * destruct (closed s); [injection E as <- <-; now rewrite ET|]. destruct (overflows s _); injection E as <- <-; [now rewrite ET|].
        rewrite reading_notify. cbn. now rewrite ET.
      * pose proof (take_th s) as TT. destruct (take s) as [s1 [v|]]; injection E as <- <-; cbn [fst] in TT; [rewrite th_set, Nat.eqb_refl; reflexivity|now rewrite TT, ET].
      * cbn in E. injection E as <- <-. cbn. now rewrite Nat.eqb_refl.
      * injection E as <- <-. now rewrite ET.
      * injection E as <- <-. now rewrite ET.
    + destruct o as [front x more| | | |]; cbn [light] in E.
      * destruct (closed s); [injection E as <- <-; reflexivity|]. destruct (overflows s _); injection E as <- <-; reflexivity.
      * destruct (take s) as [s1 r] eqn:TK. destruct (take_spec _ _ _ TK) as ((T1 & T2 & T3 & T4 & T5) & TR). destruct r; injection E as <- <-; exact T4.
      * cbn in E. injection E as <- <-. reflexivity.
      * injection E as <- <-. reflexivity.
      * injection E as <- <-. reflexivity.
  - injection E as E. destruct w as [front x close iferr tm|close tm]; cbn [init] in E.
    + apply (si_same s s' t I O); destruct (closed s); injection E as <- <-; try reflexivity; cbn; rewrite ?Nat.eqb_refl, ET; reflexivity.
    + destruct I as (ls & ND & A & L). injection E as <- <-. exists (t :: ls). split; [constructor; [|assumption]; rewrite A, ET; discriminate|]. split.
      * intros k. destruct (Nat.eq_dec k t) as [->|N]; [rewrite th_set, Nat.eqb_refl; split; [reflexivity|now left]|].
        rewrite O by assumption. rewrite <- A. cbn [In]. split; [intros [?|?]; [congruence|assumption]|now right].
      * assert (X : sem s + 1 = Z.of_nat (List.length (t :: ls))) by (cbn [List.length]; lia). destruct close; exact X.
  - destruct (free s); [|discriminate]. destruct (wait_check s w0) eqn:WC.
    { injection E as <- <-. apply (si_same s _ t I O); [|reflexivity]. cbn. now rewrite Nat.eqb_refl, ET. }
    injection E as E. destruct w0 as [front x close iferr tm|close tm]; cbn [do_ok] in E.
    + injection E as <- <-. apply (si_same s _ t I O); [|destruct close; reflexivity]. cbn. now rewrite Nat.eqb_refl, ET.
    + destruct (take (set_sem (sem s - 1) s)) as [s1 r] eqn:TK. destruct (take_spec _ _ _ TK) as ((T1 & T2 & T3 & T4 & T5) & TR). injection E as <- <-.
      destruct I as (ls & ND & A & L). assert (In t ls) by (apply A; now rewrite ET).
      destruct (in_split _ _ H) as (l1 & l2 & ->). exists (l1 ++ l2). split; [eapply NoDup_remove_1; eassumption|]. split.
      * intros k. destruct (Nat.eq_dec k t) as [->|N].
        -- rewrite th_set, Nat.eqb_refl. split; [|discriminate]. intros X. exfalso. eapply NoDup_remove_2; eassumption.
        -- rewrite O by assumption. rewrite <- A, !in_app_iff. cbn [In]. split; [intros [?|?]; auto|intros [?|[?|?]]; auto; congruence].
      * cbn [sem set_th notify]. rewrite T4. cbn [sem set_sem]. rewrite L, !app_length. cbn [List.length]. lia.
  - destruct wk; [|discriminate]. injection E as <- <-. apply (si_same s _ t I O); [|reflexivity]. cbn. now rewrite Nat.eqb_refl, ET.
  - destruct wk; [discriminate|]. injection E as <- <-. apply (si_same s _ t I O); [|reflexivity]. cbn. now rewrite Nat.eqb_refl, ET.
  - destruct (timed w0); [|discriminate]. injection E as <- <-. apply (si_same s _ t I O); [|reflexivity]. cbn. now rewrite Nat.eqb_refl, ET.
  - injection E as <- <-. apply (si_same s _ t I O); [|reflexivity]. cbn. now rewrite Nat.eqb_refl, ET.
  - destruct (is_remove b0 sn); [|discriminate]. injection E as <- <-. apply (si_same s _ t I O); [|reflexivity]. cbn. now rewrite Nat.eqb_refl, ET.
  - injection E as <- <-. apply (si_same s _ t I O); [|reflexivity]. cbn. now rewrite Nat.eqb_refl, ET.
  - destruct (free s); [|discriminate]. injection E as <- <-. apply (si_same s _ t I O); [|reflexivity]. cbn. now rewrite Nat.eqb_refl, ET.
  - injection E as <- <-. apply (si_same s _ t I O); [|reflexivity]. cbn. now rewrite Nat.eqb_refl, ET.
  - destruct (is_remove b0 sn); [discriminate|]. injection E as E. destruct b0 as [front cmp x more|pred| |pred]; cbn [big_write] in E.
    + destruct (if front then _ else _) as [|y ys]; [|destruct (overflows s _)]; injection E as <- <-; (apply (si_same s _ t I O); [|reflexivity]; cbn; now rewrite Nat.eqb_refl, ET).
    + injection E as <- <-. apply (si_same s _ t I O); [|reflexivity]. cbn. now rewrite Nat.eqb_refl, ET.
    + injection E as <- <-. apply (si_same s _ t I O); [|reflexivity]. cbn. now rewrite Nat.eqb_refl, ET.
    + injection E as <- <-. apply (si_same s _ t I O); [|reflexivity]. cbn. now rewrite Nat.eqb_refl, ET.
  - destruct (is_remove b0 sn); [|discriminate]. injection E as <- <-. apply (si_same s _ t I O); [|reflexivity]. cbn. now rewrite Nat.eqb_refl, ET.
  - injection E as <- <-. apply (si_same s _ t I O); [|reflexivity]. cbn. now rewrite Nat.eqb_refl, ET.
  - injection E as <- <-. apply (si_same s _ t I O); [|reflexivity]. cbn. now rewrite Nat.eqb_refl, ET.
  - injection E as <- <-. apply (si_same s _ t I O); [|reflexivity]. reflexivity.
Qed.
End P.
