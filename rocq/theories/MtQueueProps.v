(** C27, thread-safe queues: every interleaving of any number of threads. *)
From Coq Require Import List Bool ZArith Lia PeanoNat Permutation.
From Verif Require Import QueueModel QueueSpec QueueProps MtQueueModel MtQueueSpec MtQueueProofs MtQueueWake.
Import ListNotations.
Local Open Scope Z_scope.
Ltac Zify.zify_post_hook ::= idtac.
Section P.
Context {V : Type}.
Notation st := (st V).
(** Every execution in which no timeout fires while another thread holds the big lock is a sequence
    of operations, each of which happens at once: the answers are those of a sequence changed by one
    operation after the other, and the content is what they leave. *)
Theorem mtqueue_linearizable_partial init max ls s es : exec ls (start init max) = Some (s, es) -> calm ls (start (V := V) init max) = true ->
  seqrun {| qs := map Some init; smax := max; sclosed := false |} es {| qs := content s; smax := maxlen s; sclosed := closed s |}.
Proof. intros E C. exact (proj2 (exec_sim ls _ _ _ (inv_start init max) C E)). Qed.
(** In particular if no timeout is ever given to a waiting operation (or none fires), *)
Lemma calm_untimed ls : forall s : st, Forall (fun la => snd la <> ATimeout /\ snd la <> AIntr) ls -> calm ls s = true.
Proof.
  induction ls as [|[t a] r IH]; intros s F; [reflexivity|]. inversion F as [|? ? [A B] F']; subst. cbn [snd] in A, B. cbn [calm].
  replace (match a with ATimeout | AIntr => _ | _ => true end) with true by (destruct a; congruence).
  cbn [andb]. destruct (step t a s) as [[s1 e]|]; [now apply IH|reflexivity].
Qed.
(** or if no operation that holds the big lock is ever used. *)
Lemma exec_nolock t a (s s' : st) es : locker s = None -> (forall b, a <> ALock b) -> step t a s = Some (s', es) -> locker s' = None.
Proof.
  intros L N E. unfold step in E.
  destruct a as [o|w| | | | | | |b| | | | |n]; destruct (th s t) as [|w0|w0 wk| |b0|b0 sn|b0 sn| |] eqn:ET; try discriminate; try (exfalso; eapply N; reflexivity).
  - destruct (free s); [|discriminate]. injection E as E. destruct o as [front x more| | | |]; cbn [light] in E.
    + destruct (closed s); [injection E as <- <-; assumption|]. destruct (overflows s _); injection E as <- <-; assumption.
    + destruct (take s) as [s1 r] eqn:TK. destruct (take_spec _ _ _ TK) as ((T1 & T2 & T3 & T4 & T5) & TR). destruct r; injection E as <- <-; cbn; congruence.
    + cbn in E. injection E as <- <-. assumption.
    + injection E as <- <-. assumption.
    + injection E as <- <-. assumption.
  - injection E as E. destruct w as [front x close iferr tm|close tm]; cbn [init] in E.
    + destruct (closed s); injection E as <- <-; assumption.
    + injection E as <- <-. destruct close; assumption.
  - destruct (free s); [|discriminate]. destruct (wait_check s w0); [injection E as <- <-; assumption|]. injection E as E.
    destruct w0 as [front x close iferr tm|close tm]; cbn [do_ok] in E.
    + injection E as <- <-. destruct close; assumption.
    + destruct (take (set_sem (sem s - 1) s)) as [s1 r] eqn:TK. destruct (take_spec _ _ _ TK) as ((T1 & T2 & T3 & T4 & T5) & TR). injection E as <- <-. cbn in *. congruence.
  - destruct wk; [|discriminate]. injection E as <- <-. assumption.
  - destruct wk; [discriminate|]. injection E as <- <-. assumption.
  - destruct (timed w0); [|discriminate]. injection E as <- <-. reflexivity.
  - destruct (timed w0); [|discriminate]. injection E as <- <-. reflexivity.
  - injection E as <- <-. assumption.
  - destruct (is_remove b0 sn); [|discriminate]. injection E as <- <-. assumption.
  - injection E as <- <-. assumption.
  - injection E as <- <-. assumption.
  - destruct (is_remove b0 sn); [discriminate|]. injection E as E. destruct b0 as [front cmp x more|pred| |pred]; cbn [big_write] in E.
    + destruct (if front then _ else _) as [|y ys]; [|destruct (overflows s _)]; injection E as <- <-; assumption.
    + injection E as <- <-. assumption.
    + injection E as <- <-. assumption.
    + injection E as <- <-. assumption.
  - destruct (is_remove b0 sn); [|discriminate]. injection E as <- <-. assumption.
  - injection E as <- <-. assumption.
  - injection E as <- <-. reflexivity.
  - injection E as <- <-. assumption.
Qed.
Lemma calm_nolock ls : forall s : st, locker s = None -> Forall (fun la => forall b, snd la <> ALock b) ls -> calm ls s = true.
Proof.
  induction ls as [|[t a] r IH]; intros s L F; [reflexivity|]. inversion F as [|? ? A F']; subst. cbn [snd] in A. cbn [calm]. rewrite L.
  replace (match a with ATimeout | AIntr => true | _ => true end) with true by (destruct a; reflexivity). cbn [andb].
  destruct (step t a s) as [[s1 e]|] eqn:E; [|reflexivity]. apply IH; [|assumption]. eapply exec_nolock; eassumption.
Qed.
Theorem mtqueue_untimed_linearizable init max ls s es : exec ls (start init max) = Some (s, es) ->
  Forall (fun la => snd la <> ATimeout /\ snd la <> AIntr) ls ->
  seqrun (V := V) {| qs := map Some init; smax := max; sclosed := false |} es {| qs := content s; smax := maxlen s; sclosed := closed s |}.
Proof. intros E F. eapply mtqueue_linearizable_partial; [exact E|now apply calm_untimed]. Qed.
Theorem mtqueue_nolock_linearizable init max ls s es : exec ls (start init max) = Some (s, es) ->
  Forall (fun la => forall b, snd la <> ALock b) ls ->
  seqrun (V := V) {| qs := map Some init; smax := max; sclosed := false |} es {| qs := content s; smax := maxlen s; sclosed := closed s |}.
Proof. intros E F. eapply mtqueue_linearizable_partial; [exact E|now apply calm_nolock]. Qed.

(** Bounded queues: a positive maximum is never exceeded, whatever the threads do. *)
Lemma filter_len {A} (f : A -> bool) l : (List.length (filter f l) <= List.length l)%nat.
Proof. induction l; cbn; [lia|]. destruct (f a); cbn; lia. Qed.
Lemma put_in_len front (xs c : list (option V)) : List.length (put_in front xs c) = (List.length c + List.length xs)%nat.
Proof. unfold put_in. destruct front; rewrite app_length, ?rev_length; lia. Qed.
Lemma seqstep_bound (q q' : sq V) e : seqstep q e q' -> fixed_max [e] = true -> 0 < smax q -> Z.of_nat (List.length (qs q)) <= smax q ->
  smax q' = smax q /\ Z.of_nat (List.length (qs q')) <= smax q'.
Proof.
  assert (NE : forall (c : list (option V)) ms v, qs q = ms ++ Some v :: c -> (List.length c <= List.length (qs q))%nat) by (intros c ms v ->; rewrite app_length; cbn; lia).
  intros S F M B. destruct S; cbn [fixed_max] in F; try discriminate; cbn [qs smax with_qs]; (split; [reflexivity|]); try assumption.
  - rewrite put_in_len, map_length. destruct H0; lia.
  - rewrite put_in_len. cbn [List.length]. destruct H as [|[|]]; lia.
  - destruct H0 as (ms & E & _). apply NE in E. lia.
  - cbn. lia.
  - destruct H0 as (ms & E & _). apply NE in E. lia.
  - cbn. lia.
  - cbn. lia.
  - rewrite put_in_len. destruct H0 as [E|[|]]; [rewrite E; cbn [List.length]; lia|lia|lia].
  - pose proof (filter_len (fun x => negb (pred x)) (qs q)). lia.
Qed.
Lemma seqrun_bound (q q' : sq V) es : seqrun q es q' -> fixed_max es = true -> 0 < smax q -> Z.of_nat (List.length (qs q)) <= smax q ->
  smax q' = smax q /\ Z.of_nat (List.length (qs q')) <= smax q'.
Proof.
  induction 1 as [|q e q1 es q2 S R IH]; intros F M B; [auto|].
  assert (F1 : fixed_max [e] = true /\ fixed_max es = true) by (destruct e; cbn in *; auto; discriminate).
  destruct (seqstep_bound _ _ _ S (proj1 F1) M B) as [E1 B1]. rewrite <- E1. apply IH; [tauto|congruence|assumption].
Qed.
Lemma visible_len (c : list (option V)) : (List.length (visible c) <= List.length c)%nat.
Proof. induction c as [|[v|] r IH]; cbn; lia. Qed.
Theorem mtqueue_bound_partial init max ls s es : exec ls (start init max) = Some (s, es) -> calm ls (start (V := V) init max) = true ->
  fixed_max es = true -> 0 < max -> Z.of_nat (List.length init) <= max -> Z.of_nat (List.length (visible (content s))) <= max.
Proof.
  intros E C F M B. pose proof (mtqueue_linearizable_partial _ _ _ _ _ E C) as R.
  destruct (seqrun_bound _ _ _ R F M) as [H1 H2]; cbn [qs smax] in *; [now rewrite map_length|].
  pose proof (visible_len (content s)). lia.
Qed.
(** No item is lost and none is delivered twice. *)
Lemma seqstep_items (q q' : sq V) e : seqstep q e q' -> plain [e] = true ->
  Permutation (visible (qs q) ++ puts [e]) (takes [e] ++ visible (qs q')).
Proof.
  intros S P. destruct S; cbn [plain] in P; try discriminate; cbn [puts takes qs with_qs app]; rewrite ?app_nil_r; try reflexivity.
  - destruct front; unfold put_in; rewrite visible_app, <- ?map_rev, ?visible_map; [|reflexivity].
    etransitivity; [apply Permutation_app_comm|]. apply Permutation_app_tail, Permutation_rev.
  - destruct x as [x|]; cbn [puts app]; rewrite ?app_nil_r; destruct front; cbn [put_in rev app]; cbn [visible]; rewrite ?visible_app; cbn [visible]; rewrite ?app_nil_r; try reflexivity.
    symmetry. apply Permutation_cons_append.
  - now rewrite H.
  - now rewrite H.
  - now rewrite H.
  - now rewrite H.
  - now rewrite H.
Qed.
Lemma plain_cons (e : ev V) es : plain (e :: es) = plain [e] && plain es.
Proof. destruct e; reflexivity. Qed.
Lemma puts_cons (e : ev V) es : puts (e :: es) = puts [e] ++ puts es.
Proof. destruct e; cbn [puts app]; rewrite ?app_nil_r; try reflexivity. destruct x; reflexivity. Qed.
Lemma takes_cons (e : ev V) es : takes (e :: es) = takes [e] ++ takes es.
Proof. destruct e as [| | | |t r|t r| | | | | | | | | |]; cbn [takes app]; rewrite ?app_nil_r; try reflexivity; destruct r; reflexivity. Qed.
Lemma seqrun_items (q q' : sq V) es : seqrun q es q' -> plain es = true -> Permutation (visible (qs q) ++ puts es) (takes es ++ visible (qs q')).
Proof.
  induction 1 as [|q e q1 es q2 S R IH]; intros P; [cbn; now rewrite app_nil_r|].
  rewrite plain_cons in P. apply andb_true_iff in P as [P1 P2]. rewrite puts_cons, takes_cons, app_assoc, (seqstep_items _ _ _ S P1), <- !app_assoc.
  apply Permutation_app_head. auto.
Qed.
Theorem mtqueue_no_loss_partial init max ls s es : exec ls (start init max) = Some (s, es) -> calm ls (start (V := V) init max) = true -> plain es = true ->
  Permutation (init ++ puts es) (takes es ++ visible (content s)).
Proof.
  intros E C P. pose proof (seqrun_items _ _ _ (mtqueue_linearizable_partial _ _ _ _ _ E C) P) as H. cbn [qs] in H. now rewrite visible_map in H.
Qed.
(** If nothing is pushed in front, items come out in the order they went in. *)
Lemma seqstep_fifo (q q' : sq V) e : seqstep q e q' -> plain [e] = true -> no_push [e] = true ->
  visible (qs q) ++ puts [e] = takes [e] ++ visible (qs q').
Proof.
  intros S P N. destruct S; cbn [plain no_push] in P, N; try discriminate; cbn [puts takes qs with_qs app]; rewrite ?app_nil_r; try reflexivity; try (rewrite H; reflexivity).
  - destruct front; [discriminate|]. cbn [put_in]. now rewrite visible_app, visible_map.
  - destruct front; [discriminate|]. cbn [put_in]. rewrite visible_app. now destruct x as [x|].
Qed.
Lemma no_push_cons (e : ev V) es : no_push (e :: es) = no_push [e] && no_push es.
Proof. destruct e; try reflexivity; destruct front; reflexivity. Qed.
Lemma seqrun_fifo (q q' : sq V) es : seqrun q es q' -> plain es = true -> no_push es = true -> visible (qs q) ++ puts es = takes es ++ visible (qs q').
Proof.
  induction 1 as [|q e q1 es q2 S R IH]; intros P N; [cbn; now rewrite app_nil_r|].
  rewrite plain_cons in P. apply andb_true_iff in P as [P1 P2]. rewrite no_push_cons in N. apply andb_true_iff in N as [N1 N2].
  rewrite puts_cons, takes_cons, app_assoc, (seqstep_fifo _ _ _ S P1 N1), <- !app_assoc. f_equal. auto.
Qed.
Theorem mtqueue_fifo_partial init max ls s es : exec ls (start init max) = Some (s, es) -> calm ls (start (V := V) init max) = true ->
  plain es = true -> no_push es = true -> init ++ puts es = takes es ++ visible (content s).
Proof.
  intros E C P N. pose proof (seqrun_fifo _ _ _ (mtqueue_linearizable_partial _ _ _ _ _ E C) P N) as H. cbn [qs] in H. now rewrite visible_map in H.
Qed.

(** No wake-up is lost. *)
Lemma exec_reader ls : forall s s' es, Inv s -> RI s -> calm ls s = true -> exec ls s = Some (s', es) -> RI (V := V) s'.
Proof.
  induction ls as [|[t a] r IH]; intros s s' es I R C E; cbn [exec calm] in *; [injection E as <- <-; assumption|].
  destruct (step t a s) as [[s1 e1]|] eqn:ES; [|discriminate]. destruct (exec r s1) as [[s2 e2]|] eqn:ER; [|discriminate]. injection E as <- <-.
  apply andb_true_iff in C as [C1 C2].
  assert (Q : match a with ATimeout | AIntr => locker s = None | _ => True end) by (destruct a; try exact Logic.I; destruct (locker s); congruence).
  eapply IH; [|eapply step_reader; eassumption|eassumption|eassumption]. eapply step_sim; eassumption.
Qed.
Theorem mtqueue_reader_wakeup_partial init max ls s es t close timed : exec ls (start init max) = Some (s, es) -> calm ls (start (V := V) init max) = true ->
  th s t = Waiting (WTake close timed) false -> content s = [] \/ exists k, th s k = BNotifyR.
Proof. intros E C H. eapply (exec_reader ls _ _ _ (inv_start init max)); [|exact C|exact E|exact H|reflexivity]. intros k w X. discriminate. Qed.
Definition no_marker (es : list (ev V)) : Prop := forall t f c, ~ In (EPutWait t f None c) es.
Lemma news_clean cmp (l t : list (option V)) : clean l -> clean (news cmp t l).
Proof. intros H X. apply H. eapply news_incl; exact X. Qed.
Lemma seqstep_clean (q q' : sq V) e : seqstep q e q' -> no_marker [e] -> clean (qs q) -> clean (qs q').
Proof.
  intros S N C. destruct S; cbn [qs with_qs]; try assumption; try (intros []; fail).
  - intros X. unfold put_in in X. destruct front; apply in_app_or in X as [X|X]; try contradiction; rewrite <- ?in_rev in X; apply in_map_iff in X as (? & ? & _); discriminate.
  - intros X. assert (x <> None) by (intros ->; eapply N; now left). destruct front; cbn in X; [|apply in_app_or in X as [X|X]; [contradiction|]]; destruct X as [X|X]; try contradiction; congruence.
  - destruct H0 as (ms & E & _). intros X. apply C. rewrite E. apply in_or_app. right. now right.
  - destruct H0 as (ms & E & _). intros X. apply C. rewrite E. apply in_or_app. right. now right.
  - assert (clean new). { rewrite H. apply news_clean. intros X. apply in_map_iff in X as (? & ? & _). discriminate. }
    intros X. unfold put_in in X. destruct front; apply in_app_or in X as [X|X]; try contradiction. rewrite <- in_rev in X. contradiction.
  - intros X. apply filter_In in X as [X _]. contradiction.
Qed.
Lemma seqrun_clean (q q' : sq V) es : seqrun q es q' -> no_marker es -> clean (qs q) -> clean (qs q').
Proof.
  induction 1 as [|q e q1 es q2 S R IH]; intros N C; [assumption|]. apply IH.
  - intros t f c X. eapply N. right. exact X.
  - eapply seqstep_clean; [exact S| |exact C]. intros t f c [X|[]]. eapply N. left. exact X.
Qed.
Lemma exec_writer ls : forall s s' es, Inv s -> WI s -> clean (content s) -> calm ls s = true -> exec ls s = Some (s', es) -> no_marker es -> fixed_max es = true -> WI (V := V) s' /\ clean (content s').
Proof.
  induction ls as [|[t a] r IH]; intros s s' es I R CL C E NM F; cbn [exec calm] in *; [injection E as <- <-; split; assumption|].
  destruct (step t a s) as [[s1 e1]|] eqn:ES; [|discriminate]. destruct (exec r s1) as [[s2 e2]|] eqn:ER; [|discriminate]. injection E as <- <-.
  apply andb_true_iff in C as [C1 C2].
  assert (F1 : fixed_max e1 = true /\ fixed_max e2 = true).
  { clear - F. induction e1 as [|e l IH]; [auto|]. destruct e; cbn in *; auto; discriminate. }
  assert (Q0 : match a with ATimeout | AIntr => locker s = None | _ => True end) by (destruct a; try exact Logic.I; destruct (locker s); congruence).
  assert (Q : match a with ATimeout | AIntr => locker s = None | ASetMax _ => False | _ => True end).
  { destruct a; try exact Logic.I; try exact Q0. unfold step in ES. destruct (th s t); try discriminate. injection ES as <- <-. destruct F1. discriminate. }
  destruct (step_sim _ _ _ _ _ I Q0 ES) as [I1 R1].
  assert (CL1 : clean (content s1)). { eapply (seqrun_clean _ _ _ R1); [|exact CL]. intros x f c X. eapply NM. apply in_or_app. left. exact X. }
  eapply IH; [exact I1|exact (step_writer _ _ _ _ _ I R CL Q ES)|exact CL1|exact C2|exact ER| |tauto].
  intros x f c X. eapply NM. apply in_or_app. right. exact X.
Qed.
(** A waiting writer that has not been notified has nowhere to put its item, or another thread is on
    its way to notify it: for executions that change no maximum and use no mtqueue-close!. *)
Theorem mtqueue_writer_wakeup_partial init max ls s es t front x close iferr timed : exec ls (start init max) = Some (s, es) -> calm ls (start (V := V) init max) = true ->
  no_marker es -> fixed_max es = true -> th s t = Waiting (WPut front x close iferr timed) false ->
  (if max =? 0 then sem s = 0 else 0 <= max /\ max <= Z.of_nat (List.length (content s))) \/ exists k, th s k = NotifyW.
Proof.
  intros E C N F H.
  assert (CL : clean (content (start (V := V) init max))) by (cbn; intros X; apply in_map_iff in X as (? & ? & _); discriminate).
  destruct (exec_writer ls _ _ _ (inv_start init max) ltac:(intros ? ? ?; discriminate) CL C E N F) as [W _].
  assert (M : maxlen s = max).
  { pose proof (mtqueue_linearizable_partial _ _ _ _ _ E C) as R. clear - R F.
    assert (G : forall (q q' : sq V) es, seqrun q es q' -> fixed_max es = true -> smax q' = smax q).
    { induction 1 as [|q e q1 es0 q2 S R0 IH]; intros X; [reflexivity|]. rewrite IH by (destruct e; cbn in X; auto; discriminate). destruct S; cbn in X |- *; try reflexivity. discriminate. }
    apply G in R; [|assumption]. exact R. }
  destruct (W t _ H eq_refl) as [[X|X] _]; [left|right; exact X]. unfold full in X. rewrite M in X. destruct (max =? 0); [exact X|].
  unfold overflows, length in X. rewrite M in X. apply andb_true_iff in X as [X1 X2]. rewrite Z.leb_le in X1. rewrite Z.ltb_lt in X2. lia.
Qed.
(** So when every thread is idle or waits without having been notified, readers and writers do not
    wait for each other. *)
Definition quiescent (s : st) : Prop := forall t, th s t = Idle \/ exists w, th s t = Waiting w false.
Lemma exec_sem ls : forall s s' es, SI s -> Forall (fun la => snd la <> ATimeout) ls -> exec ls s = Some (s', es) -> SI (V := V) s'.
Proof.
  induction ls as [|[t a] r IH]; intros s s' es I F E; cbn [exec] in *; [injection E as <- <-; assumption|].
  destruct (step t a s) as [[s1 e1]|] eqn:ES; [|discriminate]. destruct (exec r s1) as [[s2 e2]|] eqn:ER; [|discriminate]. injection E as <- <-.
  inversion F; subst. eapply IH; [|eassumption|eassumption]. eapply step_sem; eassumption.
Qed.
Theorem mtqueue_no_deadlock_partial init max ls s es t close timed u front x close' iferr timed' :
  exec ls (start init max) = Some (s, es) -> calm ls (start (V := V) init max) = true -> Forall (fun la => snd la <> ATimeout) ls ->
  no_marker es -> fixed_max es = true -> quiescent s ->
  th s t = Waiting (WTake close timed) false -> th s u = Waiting (WPut front x close' iferr timed') false -> False.
Proof.
  intros E C NT N F Q R W.
  destruct (mtqueue_reader_wakeup_partial _ _ _ _ _ _ _ _ E C R) as [CE|(k & K)]; [|destruct (Q k) as [|(? & ?)]; congruence].
  destruct (mtqueue_writer_wakeup_partial _ _ _ _ _ _ _ _ _ _ _ E C N F W) as [X|(k & K)]; [|destruct (Q k) as [|(? & ?)]; congruence].
  destruct (Z.eqb_spec max 0) as [M|M].
  - assert (S0 : SI (start (V := V) init max)) by (exists []; split; [constructor|]; split; [intros k; cbn; split; [intros []|discriminate]|reflexivity]).
    destruct (exec_sem ls _ _ _ S0 NT E) as (rs & ND & A & L).
    assert (In t rs) by (apply A; rewrite R; reflexivity). destruct rs; [contradiction|]. cbn [List.length] in L. lia.
  - rewrite CE in X. cbn in X. lia.
Qed.
End P.
(** An execution that meets the hypotheses: a reader waits, two writers come, one waits. *)
Example mtqueue_case : exists s es,
  exec [(1%nat, AStart (WTake false true)); (1%nat, AGo); (2%nat, AStart (WPut false (Some 7) false true false)); (2%nat, AGo); (3%nat, AStart (WPut false (Some 8) false true false)); (3%nat, AGo);
        (1%nat, AWake); (1%nat, AGo); (3%nat, AWake); (3%nat, AGo); (4%nat, ALock (BRemove (fun x => match x with Some v => Z.even v | None => false end))); (4%nat, ARead); (4%nat, ANotify); (4%nat, AWrite); (4%nat, AUnlock);
        (5%nat, AStart (WTake false true)); (5%nat, AGo); (5%nat, ATimeout); (3%nat, ALight (LPut false 9 []))] (start [] 1) = Some (s, es) /\
  calm [(1%nat, AStart (WTake false true)); (1%nat, AGo); (2%nat, AStart (WPut false (Some 7) false true false)); (2%nat, AGo); (3%nat, AStart (WPut false (Some 8) false true false)); (3%nat, AGo);
        (1%nat, AWake); (1%nat, AGo); (3%nat, AWake); (3%nat, AGo); (4%nat, ALock (BRemove (fun x => match x with Some v => Z.even v | None => false end))); (4%nat, ARead); (4%nat, ANotify); (4%nat, AWrite); (4%nat, AUnlock);
        (5%nat, AStart (WTake false true)); (5%nat, AGo); (5%nat, ATimeout); (3%nat, ALight (LPut false 9 []))] (start [] 1) = true /\
  puts es = [7; 8; 9] /\ takes es = [7] /\ content s = [Some 9] /\ fixed_max es = true.
Proof. eexists _, _. vm_compute. repeat split. Qed.
(** Where the hypotheses of the theorems fail. *)
(** A waiter that times out clears the big lock of another thread (ext/data/queue.scm:265): here thread
    0 is inside remove-from-queue!, and item 2 is delivered twice. *)
Theorem mtqueue_timeout_duplicates_refuted : exists s es,
  exec [(3%nat, AStart (WPut false (Some 9) false true true)); (3%nat, AGo); (0%nat, ALock (BRemove (fun x => match x with Some v => v =? 1 | None => false end))); (0%nat, ARead);
        (3%nat, ATimeout); (2%nat, ALight LTake); (2%nat, ANotify); (2%nat, ALight LTake); (2%nat, ANotify); (0%nat, ANotify); (0%nat, AWrite); (0%nat, AUnlock); (2%nat, ALight LTake)] (start [1; 2] 2) = Some (s, es) /\
  puts es = [] /\ takes es = [1; 2; 2].
Proof. eexists _, _. vm_compute. repeat split. Qed.
(** A queue of length 0 takes an item only for a waiting reader, but a reader that timed out still
    counts (630 is not reached), *)
Theorem mtqueue_zero_timeout_refuted : exists s es,
  exec [(1%nat, AStart (WTake false true)); (1%nat, AGo); (1%nat, ATimeout); (2%nat, AStart (WPut false (Some 5) false true false)); (2%nat, AGo)] (start [] 0) = Some (s, es) /\
  (forall t, th s t = Idle) /\ content s = [Some 5].
Proof. eexists _, _. split; [vm_compute; reflexivity|]. split; [intros [|[|[|t]]]; reflexivity|reflexivity]. Qed.
(** and one reader admits any number of items. *)
Theorem mtqueue_zero_two_writers_refuted : exists s es,
  exec [(1%nat, AStart (WTake false false)); (1%nat, AGo); (2%nat, AStart (WPut false (Some 5) false true false)); (2%nat, AGo); (3%nat, AStart (WPut false (Some 6) false true false)); (3%nat, AGo); (1%nat, AWake); (1%nat, AGo)] (start [] 0) = Some (s, es) /\
  (forall t, th s t = Idle) /\ content s = [Some 6].
Proof. eexists _, _. split; [vm_compute; reflexivity|]. split; [intros [|[|[|[|t]]]]; reflexivity|reflexivity]. Qed.
(** A writer that was waiting when the queue was closed puts its item in a closed queue (493 is only
    looked at before the wait). *)
Theorem mtqueue_put_after_close_refuted : exists s es,
  exec [(1%nat, AStart (WPut false (Some 5) false true false)); (1%nat, AGo); (2%nat, AStart (WTake true false)); (2%nat, AGo); (1%nat, AWake); (1%nat, AGo)] (start [1] 1) = Some (s, es) /\
  closed s = true /\ content s = [Some 5].
Proof. eexists _, _. vm_compute. repeat split. Qed.
(** queue-push/wait! on a closed queue: :error does not raise an error, another value does (556-558). *)
Theorem mtqueue_push_closed_refuted t c s : closed s = true -> th s t = Idle ->
  step (V := Z) t (AStart (WPut true (Some 5) c true false)) s = Some (s, [EClosed t false]) /\
  step t (AStart (WPut true (Some 5) c false false)) s = Some (s, [EClosed t true]).
Proof. intros C I. unfold step. rewrite I. cbn [init]. rewrite C. split; reflexivity. Qed.
(** Raising the maximum does not wake the writers (154-157). *)
Theorem mtqueue_setmax_wakeup_refuted : exists s es,
  exec [(1%nat, AStart (WPut false (Some 5) false true false)); (1%nat, AGo); (2%nat, ASetMax 2)] (start [1] 1) = Some (s, es) /\
  quiescent s /\ maxlen s = 2 /\ content s = [Some 1] /\ exists w, th s 1%nat = Waiting w false.
Proof. eexists _, _. split; [vm_compute; reflexivity|]. split; [intros [|[|t]]; cbn; eauto|]. repeat split. cbn. eauto. Qed.
(** dequeue! that finds only the close marker removes it without waking the writers (612-615). *)
Theorem mtqueue_marker_wakeup_refuted : exists s es,
  exec [(2%nat, AStart (WPut false (Some 5) false true false)); (2%nat, AGo); (1%nat, AStart (WPut false None true false false)); (1%nat, AGo); (3%nat, ALight LTake); (3%nat, ANotify);
        (1%nat, AWake); (1%nat, AGo); (2%nat, AWake); (2%nat, AGo); (3%nat, ALight LTake)] (start [1] 1) = Some (s, es) /\
  quiescent s /\ content s = [] /\ exists w, th s 2%nat = Waiting w false.
Proof. eexists _, _. split; [vm_compute; reflexivity|]. split; [intros [|[|[|[|t]]]]; cbn; eauto|]. repeat split. cbn. eauto. Qed.
(** mtqueue-close! wakes all waiting readers, but only the first gets its answer; the others wait on. *)
Theorem mtqueue_close_two_readers_refuted : exists s es,
  exec [(1%nat, AStart (WTake false false)); (1%nat, AGo); (2%nat, AStart (WTake false false)); (2%nat, AGo); (3%nat, AStart (WPut false None true false false)); (3%nat, AGo);
        (1%nat, AWake); (1%nat, AGo); (2%nat, AWake); (2%nat, AGo)] (start [] (-1)) = Some (s, es) /\
  quiescent (V := Z) s /\ closed s = true /\ exists w, th s 2%nat = Waiting w false.
Proof. eexists _, _. split; [vm_compute; reflexivity|]. split; [intros [|[|[|[|t]]]]; cbn; eauto|]. repeat split. cbn. eauto. Qed.
(** list->queue does not look at the maximum (317-319). *)
Theorem mtqueue_list_exceeds_refuted : exists s es, exec [] (start [1; 2; 3] 1) = Some (s, es) /\ List.length (content s) = 3%nat /\ maxlen s = 1.
Proof. eexists _, _. vm_compute. repeat split. Qed.

Print Assumptions mtqueue_linearizable_partial.
Print Assumptions mtqueue_untimed_linearizable.
Print Assumptions mtqueue_nolock_linearizable.
Print Assumptions mtqueue_bound_partial.
Print Assumptions mtqueue_no_loss_partial.
Print Assumptions mtqueue_fifo_partial.
Print Assumptions mtqueue_reader_wakeup_partial.
Print Assumptions mtqueue_writer_wakeup_partial.
Print Assumptions mtqueue_no_deadlock_partial.
Print Assumptions mtqueue_timeout_duplicates_refuted.
Print Assumptions mtqueue_zero_timeout_refuted.
Print Assumptions mtqueue_zero_two_writers_refuted.
Print Assumptions mtqueue_put_after_close_refuted.
Print Assumptions mtqueue_push_closed_refuted.
Print Assumptions mtqueue_setmax_wakeup_refuted.
Print Assumptions mtqueue_marker_wakeup_refuted.
Print Assumptions mtqueue_close_two_readers_refuted.
Print Assumptions mtqueue_list_exceeds_refuted.
