From Coq Require Import List Bool ZArith Lia PeanoNat Permutation.
From Verif Require Import QueueModel QueueSpec QueueProps MtQueueModel MtQueueSpec.
Import ListNotations.
Local Open Scope Z_scope.
Ltac Zify.zify_post_hook ::= idtac.
Section P.
Context {V : Type}.
Notation st := (st V).
Definition holds (x : tstate (V := V)) : bool :=
  match x with BLocked _ | BRead _ _ | BNoted _ _ | BNotifyR | BDone => true | _ => false end.
Definition snap_of (x : tstate (V := V)) : option (list (option V)) :=
  match x with BRead _ c | BNoted _ c => Some c | _ => None end.
Definition Inv (s : st) : Prop :=
  (forall t, holds (th s t) = true <-> locker s = Some t) /\ (forall t c, snap_of (th s t) = Some c -> c = content s).
Definition abs (s : st) : sq V := {| qs := content s; smax := maxlen s; sclosed := closed s |}.
Definition same_but (t : nat) (s s' : st) : Prop :=
  forall k, k <> t -> holds (th s' k) = holds (th s k) /\ snap_of (th s' k) = snap_of (th s k).
Lemma snap_holds x c : snap_of x = Some c -> holds x = true.
Proof. destruct x; cbn; congruence. Qed.
Lemma inv_same s s' t : Inv s -> same_but t s s' -> locker s' = locker s -> content s' = content s ->
  holds (th s' t) = holds (th s t) -> (forall c, snap_of (th s' t) = Some c -> c = content s) -> Inv s'.
Proof.
  intros [A B] D L C H S. split.
  - intros k. rewrite L. destruct (Nat.eq_dec k t) as [->|N]; [rewrite H; apply A|]. rewrite (proj1 (D k N)). apply A.
  - intros k c E. rewrite C. destruct (Nat.eq_dec k t) as [->|N]; [auto|]. rewrite (proj2 (D k N)) in E. eauto.
Qed.
Lemma inv_free s s' t : Inv s -> same_but t s s' -> locker s = None -> locker s' = None -> holds (th s' t) = false -> Inv s'.
Proof.
  intros [A B] D L L' H.
  assert (F : forall k, holds (th s' k) = false).
  { intros k. destruct (Nat.eq_dec k t) as [->|N]; [assumption|]. rewrite (proj1 (D k N)).
    destruct (holds (th s k)) eqn:E; [|reflexivity]. apply A in E. congruence. }
  split.
  - intros k. rewrite F, L'. split; discriminate.
  - intros k c E. apply snap_holds in E. rewrite F in E. discriminate.
Qed.
Lemma inv_own s s' t : Inv s -> same_but t s s' -> (locker s = None \/ locker s = Some t) -> locker s' = Some t ->
  holds (th s' t) = true -> snap_of (th s' t) = None -> Inv s'.
Proof.
  intros [A B] D L L' H S.
  assert (F : forall k, k <> t -> holds (th s' k) = false).
  { intros k N. rewrite (proj1 (D k N)). destruct (holds (th s k)) eqn:E; [|reflexivity]. apply A in E. destruct L; congruence. }
  split.
  - intros k. rewrite L'. destruct (Nat.eq_dec k t) as [->|N]; [rewrite H; easy|]. rewrite (F k N). split; congruence.
  - intros k c E. destruct (Nat.eq_dec k t) as [->|N]; [congruence|]. apply snap_holds in E. rewrite F in E by assumption. discriminate.
Qed.
Lemma inv_release s s' t : Inv s -> same_but t s s' -> locker s = Some t -> locker s' = None -> holds (th s' t) = false -> Inv s'.
Proof.
  intros [A B] D L L' H.
  assert (F : forall k, holds (th s' k) = false).
  { intros k. destruct (Nat.eq_dec k t) as [->|N]; [assumption|]. rewrite (proj1 (D k N)).
    destruct (holds (th s k)) eqn:E; [|reflexivity]. apply A in E. congruence. }
  split.
  - intros k. rewrite F, L'. split; discriminate.
  - intros k c E. apply snap_holds in E. rewrite F in E. discriminate.
Qed.
Lemma th_set t x (s : st) k : th (set_th t x s) k = if Nat.eqb k t then x else th s k.
Proof. reflexivity. Qed.
Lemma th_notify r (s : st) k : th (notify r s) k = match th s k with Waiting w b => if Bool.eqb (is_take w) r then Waiting w true else Waiting w b | x => x end.
Proof. reflexivity. Qed.
Lemma holds_notify r (s : st) k : holds (th (notify r s) k) = holds (th s k).
Proof. rewrite th_notify. destruct (th s k) as [| |w b| | | | | |]; try reflexivity. now destruct (Bool.eqb (is_take w) r). Qed.
Lemma snap_notify r (s : st) k : snap_of (th (notify r s) k) = snap_of (th s k).
Proof. rewrite th_notify. destruct (th s k) as [| |w b| | | | | |]; try reflexivity. now destruct (Bool.eqb (is_take w) r). Qed.
Lemma visible_app (a b : list (option V)) : visible (a ++ b) = visible a ++ visible b.
Proof. induction a as [|[v|] r IH]; cbn; congruence. Qed.
Lemma visible_map (l : list V) : visible (map Some l) = l.
Proof. induction l; cbn; congruence. Qed.
Lemma visible_filter (c : list (option V)) : visible (filter (fun x => match x with None => false | Some _ => true end) c) = visible c.
Proof. induction c as [|[v|] r IH]; cbn; congruence. Qed.
Lemma skip_spec (c : list (option V)) : exists ms, c = ms ++ skip_markers c /\ visible ms = [] /\
  (match skip_markers c with [] => True | None :: _ => False | Some _ :: _ => True end).
Proof.
  induction c as [|[v|] r (ms & E & M & D)].
  - exists []. repeat split.
  - exists []. repeat split.
  - exists (None :: ms). cbn [skip_markers visible app]. rewrite E at 1. auto.
Qed.
Lemma take_spec (s s' : st) r : take s = (s', r) ->
  (maxlen s' = maxlen s /\ closed s' = closed s /\ locker s' = locker s /\ sem s' = sem s /\ th s' = th s) /\
  match r with
  | Some v => exists ms, content s = ms ++ Some v :: content s' /\ visible ms = []
  | None => visible (content s) = [] /\ content s' = []
  end.
Proof.
  unfold take. destruct (skip_spec (content s)) as (ms & E & M & D). destruct (skip_markers (content s)) as [|[v|] c]; [| |contradiction].
  - intros H. injection H as <- <-. cbn. split; [auto|]. rewrite E, app_nil_r. auto.
  - intros H. injection H as <- <-. cbn. split; [auto|]. exists ms. auto.
Qed.
Lemma overflow_room (s : st) n : overflows s n = false <-> room (abs s) n.
Proof.
  unfold overflows, room, length. cbn [abs qs smax]. rewrite andb_false_iff, Z.leb_gt, Z.ltb_ge. split; (intros [H|H]; [left; exact H|right; rewrite Z.add_comm; exact H]).
Qed.
Lemma overflow_noroom (s : st) n : overflows s n = true <-> ~ room (abs s) n.
Proof. rewrite <- overflow_room. destruct (overflows s n); split; congruence. Qed.
Lemma sr1 q e q' : seqstep q e q' -> seqrun (V := V) q [e] q'.
Proof. intros H. econstructor; [exact H|constructor]. Qed.
Lemma sq_eta (q : sq V) : with_qs q (qs q) = q.
Proof. now destruct q. Qed.
Ltac other := let k := fresh "k" in let N := fresh "N" in intros k N;
  repeat (rewrite th_set, (proj2 (Nat.eqb_neq _ _) N) || rewrite holds_notify || rewrite snap_notify); cbn [th set_content set_closed set_locker set_sem set_max put];
  split; reflexivity.
Lemma step_sim t a s s' es : Inv s -> (match a with ATimeout | AIntr => locker s = None | _ => True end) ->
  step t a s = Some (s', es) -> Inv s' /\ seqrun (abs s) es (abs s').
Proof.
  intros I Q E. pose proof I as [IA IB].
  assert (FREE : free s = true -> locker s = None) by (unfold free; destruct (locker s); congruence).
  unfold step in E. destruct a as [o|w| | | | | | |b| | | | |n]; destruct (th s t) as [|w0|w0 wk| |b0|b0 sn|b0 sn| |] eqn:ET; try discriminate.
  - (* light *)
    destruct (free s) eqn:FR; [|discriminate]. specialize (FREE eq_refl). injection E as E.
    assert (HT : holds (th s t) = false) by (rewrite ET; reflexivity).
    destruct o as [front x more| | | |]; cbn [light] in E.
    + destruct (closed s) eqn:CL.
      { injection E as <- <-. split; [assumption|]. apply sr1. now constructor. }
      destruct (overflows s (Z.of_nat (List.length (x :: more)))) eqn:OV.
      { injection E as <- <-. split; [assumption|]. apply sr1. constructor. now apply overflow_noroom. }
      injection E as <- <-. split.
      * eapply (inv_free s _ t); try assumption; [other|]. rewrite holds_notify. exact HT.
      * apply sr1. apply (sPut (abs s) t front (x :: more)); [exact CL|]. now apply overflow_room.
    + destruct (take s) as [s1 r] eqn:TK. destruct (take_spec _ _ _ TK) as ((T1 & T2 & T3 & T4 & T5) & TR). destruct r as [v|].
      * destruct TR as (ms & TE & TM). injection E as <- <-. split.
        -- eapply (inv_free s _ t); try assumption; [|cbn; congruence|cbn; now rewrite Nat.eqb_refl].
           intros k N. rewrite th_set, (proj2 (Nat.eqb_neq _ _) N), T5. split; reflexivity.
        -- apply sr1. replace (abs (set_th t NotifyW s1)) with (with_qs (abs s) (content s1)) by (unfold abs, with_qs; cbn; congruence).
           apply sTake; cbn [abs qs]; [|eauto]. rewrite TE, visible_app, TM. reflexivity.
      * destruct TR as (TV & TC). injection E as <- <-. split.
        -- eapply (inv_free s _ t); try assumption; [|congruence|now rewrite T5]. intros k N. rewrite T5. split; reflexivity.
        -- apply sr1. replace (abs s1) with (with_qs (abs s) []) by (unfold abs, with_qs; cbn; congruence). now apply sTakeNone.
    + unfold take_all in E. injection E as <- <-. split.
      * eapply (inv_free s _ t); try assumption; [other|]. cbn. now rewrite Nat.eqb_refl.
      * apply sr1. apply (sTakeAll (abs s)). cbn [abs qs]. destruct (rev (content s)) as [|[v|] r]; [reflexivity|reflexivity|]. apply visible_filter.
    + injection E as <- <-. split; [assumption|]. apply sr1. destruct (content s) eqn:EC; [apply sPeekNone; exact EC|]. eapply sPeek; [exact EC|reflexivity].
    + injection E as <- <-. split; [assumption|]. apply sr1. apply sEmpty. cbn [abs qs]. destruct (content s); split; congruence.
  - (* start *)
    assert (HT : holds (th s t) = false) by (rewrite ET; reflexivity).
    injection E as E. destruct w as [front x close iferr tm|close tm]; cbn [init] in E.
    + destruct (closed s) eqn:CL; injection E as <- <-.
      * split; [assumption|]. apply sr1. now constructor.
      * split; [|constructor]. eapply (inv_same s _ t); try assumption; try reflexivity; [other| |].
        -- rewrite HT. cbn. now rewrite Nat.eqb_refl.
        -- cbn. rewrite Nat.eqb_refl. discriminate.
    + injection E as <- <-. split.
      * eapply (inv_same s _ t); try assumption; [|destruct close; reflexivity|destruct close; reflexivity| |].
        -- intros k N. rewrite th_set, (proj2 (Nat.eqb_neq _ _) N), holds_notify, snap_notify. destruct close; split; reflexivity.
        -- rewrite HT. cbn. now rewrite Nat.eqb_refl.
        -- cbn. rewrite Nat.eqb_refl. discriminate.
      * destruct close; [apply sr1; apply (sClose (abs s))|constructor].
  - (* go *)
    destruct (free s) eqn:FR; [|discriminate]. specialize (FREE eq_refl).
    assert (HT : holds (th s t) = false) by (rewrite ET; reflexivity).
    destruct (wait_check s w0) eqn:WC.
    { injection E as <- <-. split; [|constructor]. eapply (inv_free s _ t); try assumption; [other|]. cbn. now rewrite Nat.eqb_refl. }
    injection E as E. destruct w0 as [front x close iferr tm|close tm]; cbn [do_ok] in E.
    + injection E as <- <-. split.
      * eapply (inv_free s _ t); try assumption; [|destruct close; exact FREE|].
        -- intros k N. rewrite th_set, (proj2 (Nat.eqb_neq _ _) N), holds_notify, snap_notify. destruct close; split; reflexivity.
        -- cbn. now rewrite Nat.eqb_refl.
      * apply sr1. match goal with |- seqstep _ _ ?q => replace q with {| qs := put_in front [x] (qs (abs s)); smax := smax (abs s); sclosed := sclosed (abs s) || close |} end.
        2:{ unfold abs, put_in. destruct close; cbn; [rewrite orb_true_r|rewrite orb_false_r]; reflexivity. }
        apply sPutWait. cbn [wait_check] in WC. destruct (Z.eqb_spec (maxlen s) 0) as [M0|M0]; [left; exact M0|right]. cbn [negb] in WC. now apply overflow_room.
    + destruct (take (set_sem (sem s - 1) s)) as [s1 r] eqn:TK. destruct (take_spec _ _ _ TK) as ((T1 & T2 & T3 & T4 & T5) & TR). cbn [content set_sem] in TR.
      cbn [maxlen closed locker sem th set_sem] in T1, T2, T3, T4, T5. injection E as <- <-. split.
      * eapply (inv_free s _ t); try assumption; [|cbn; congruence|cbn; now rewrite Nat.eqb_refl].
        intros k N. rewrite th_set, (proj2 (Nat.eqb_neq _ _) N), holds_notify, snap_notify, T5. split; reflexivity.
      * apply sr1. destruct r as [v|].
        -- destruct TR as (ms & TE & TM). match goal with |- seqstep _ _ ?q => replace q with (with_qs (abs s) (content s1)) by (unfold abs, with_qs; cbn; congruence) end.
           apply sTakeWait; cbn [abs qs]; [|eauto]. rewrite TE, visible_app, TM. reflexivity.
        -- destruct TR as (TV & TC). replace (abs (set_th t Idle (notify false s1))) with (with_qs (abs s) []) by (unfold abs, with_qs; cbn; congruence).
           apply sTakeWaitNone; [exact TV|]. cbn [abs qs]. cbn [wait_check] in WC. destruct (content s); [discriminate|congruence].
  - (* wake *)
    destruct wk; [|discriminate]. injection E as <- <-. split; [|constructor].
    eapply (inv_same s _ t); try assumption; try reflexivity; [other| |]; cbn; rewrite Nat.eqb_refl; [now rewrite ET|discriminate].
  - destruct wk; [discriminate|]. injection E as <- <-. split; [|constructor].
    eapply (inv_same s _ t); try assumption; try reflexivity; [other| |]; cbn; rewrite Nat.eqb_refl; [now rewrite ET|discriminate].
  - destruct (timed w0); [|discriminate]. injection E as <- <-. split; [|apply sr1; apply (sTimeout (abs s))].
    eapply (inv_free s _ t); try assumption; try reflexivity; [other|]. cbn. now rewrite Nat.eqb_refl.
  - destruct (timed w0); [|discriminate]. injection E as <- <-. split; [|constructor].
    eapply (inv_free s _ t); try assumption; try reflexivity; [other|]. cbn. now rewrite Nat.eqb_refl.
  - injection E as <- <-. split; [|constructor].
    eapply (inv_same s _ t); try assumption; try reflexivity; [other| |]; cbn; rewrite Nat.eqb_refl; [now rewrite ET|discriminate].
  - (* notify of remove *)
    destruct (is_remove b0 sn) eqn:IR; [|discriminate]. injection E as <- <-. split; [|constructor].
    eapply (inv_same s _ t); try assumption; try reflexivity; [other| |]; cbn; rewrite Nat.eqb_refl; [now rewrite ET|].
    intros c H. injection H as <-. apply (IB t). now rewrite ET.
  - injection E as <- <-. split; [|constructor].
    eapply (inv_same s _ t); try assumption; try reflexivity; [other| |]; cbn; rewrite Nat.eqb_refl; [now rewrite ET|discriminate].
  - (* lock *)
    destruct (free s) eqn:FR; [|discriminate]. specialize (FREE eq_refl). injection E as <- <-. split; [|constructor].
    eapply (inv_own s _ t); try assumption; try reflexivity; [other|now left| |]; cbn; now rewrite Nat.eqb_refl.
  - (* read *)
    injection E as <- <-. split; [|constructor].
    eapply (inv_same s _ t); try assumption; try reflexivity; [other| |]; cbn; rewrite Nat.eqb_refl; [now rewrite ET|]. intros c H. cbn in H. injection H as <-. reflexivity.
  - (* write *)
    assert (OWN : locker s = Some t) by (apply IA; now rewrite ET).
    assert (SN : sn = content s) by (apply (IB t); now rewrite ET). subst sn.
    destruct (is_remove b0 (content s)) eqn:IR; [discriminate|]. injection E as E.
    assert (DN : Inv (set_th t BDone s)).
    { eapply (inv_own s _ t); try assumption; [other|now right| |]; cbn; now rewrite Nat.eqb_refl. }
    destruct b0 as [front cmp x more|pred| |pred]; cbn [big_write] in E.
    + assert (NW : (if front then pick_push (icmp cmp) (content s) [] (map Some (x :: more)) else rev (pick_enqueue (icmp cmp) (content s) [] (map Some (x :: more)))) =
                   let n := news (icmp cmp) (content s) (map Some (x :: more)) in if front then rev n else n).
      { destruct front; [rewrite pick_push_news|rewrite pick_enqueue_news, app_nil_r, rev_involutive]; cbn [app]; [now rewrite app_nil_r|reflexivity]. }
      rewrite NW in E. cbv zeta in E. set (n := news (icmp cmp) (content s) (map Some (x :: more))) in *.
      destruct (if front then rev n else n) as [|y ys] eqn:EN.
      * injection E as <- <-. split; [assumption|]. apply sr1. assert (n = []) as N0.
        { destruct front; [|exact EN]. apply (f_equal (@rev _)) in EN. now rewrite rev_involutive in EN. }
        replace (abs (set_th t BDone s)) with (with_qs (abs s) (put_in front n (qs (abs s)))).
        2:{ rewrite N0. destruct s, front; cbn; unfold abs, with_qs, put_in; cbn; rewrite ?app_nil_r; reflexivity. }
        now eapply sUnique; [reflexivity|left].
      * assert (LN : Z.of_nat (List.length (y :: ys)) = Z.of_nat (List.length n)) by (rewrite <- EN; destruct front; rewrite ?rev_length; reflexivity).
        rewrite LN in E. destruct (overflows s (Z.of_nat (List.length n))) eqn:OV; injection E as <- <-.
        -- split; [assumption|]. apply sr1. apply (sFull (abs s)). now apply overflow_noroom.
        -- split.
           ++ eapply (inv_own s _ t); try assumption; [other|now right| |]; cbn; now rewrite Nat.eqb_refl.
           ++ apply sr1. match goal with |- seqstep _ _ ?q => replace q with (with_qs (abs s) (put_in front n (qs (abs s)))) end.
              2:{ unfold abs, with_qs, put_in. clearbody n. cbn [qs smax sclosed content set_th set_content maxlen closed]. change (y :: ys ++ content s) with ((y :: ys) ++ content s). rewrite <- EN. destruct front; reflexivity. }
              eapply sUnique; [reflexivity|right]. now apply overflow_room.
    + injection E as <- <-. split; [assumption|]. apply sr1. cbn [is_remove] in IR. destruct (existsb pred (content s)) eqn:EX; [discriminate|].
      replace (abs (set_th t BDone s)) with (with_qs (abs s) (filter (fun x => negb (pred x)) (qs (abs s)))).
      { apply sRemove. cbn. congruence. }
      destruct s as [c m cl lk sm h]. unfold abs, with_qs. cbn in *. f_equal. clear - EX.
      induction c as [|x r IH]; [reflexivity|]. cbn [existsb] in EX. apply orb_false_iff in EX as [A B]. cbn [filter]. rewrite A. cbn [negb]. now rewrite IH.
    + injection E as <- <-. split; [assumption|]. apply sr1. now apply (sList (abs s)).
    + injection E as <- <-. split; [assumption|]. apply sr1. now apply (sFind (abs s)).
  - (* write of remove *)
    assert (OWN : locker s = Some t) by (apply IA; now rewrite ET).
    assert (SN : sn = content s) by (apply (IB t); now rewrite ET). subst sn.
    destruct (is_remove b0 (content s)) as [pred|] eqn:IR; [|discriminate]. injection E as <- <-. split.
    + eapply (inv_own s _ t); try assumption; [other|now right| |]; cbn; now rewrite Nat.eqb_refl.
    + apply sr1. apply (sRemove (abs s)). destruct b0; cbn in IR; try discriminate. destruct (existsb pred0 (content s)) eqn:EX; [|discriminate]. injection IR as <-. cbn. congruence.
  - (* raise *)
    injection E as <- <-. split; [|constructor].
    eapply (inv_same s _ t); try assumption; try reflexivity; [other| |]; cbn; rewrite Nat.eqb_refl; [now rewrite ET|discriminate].
  - (* unlock *)
    assert (OWN : locker s = Some t) by (apply IA; now rewrite ET). injection E as <- <-. split; [|constructor].
    eapply (inv_release s _ t); try assumption; try reflexivity; [other|]. cbn. now rewrite Nat.eqb_refl.
  - (* setmax *)
    injection E as <- <-. split; [|apply sr1; apply (sSetMax (abs s))].
    eapply (inv_same s _ t); try assumption; try reflexivity; [other|cbn; rewrite ET; discriminate].
Qed.
Lemma seqrun_app q es q' fs q'' : seqrun q es q' -> seqrun q' fs q'' -> seqrun (V := V) q (es ++ fs) q''.
Proof. induction 1; intros; cbn [app]; [assumption|]. econstructor; eauto. Qed.
Lemma exec_sim ls : forall s s' es, Inv s -> calm ls s = true -> exec ls s = Some (s', es) -> Inv s' /\ seqrun (abs s) es (abs s').
Proof.
  induction ls as [|[t a] r IH]; intros s s' es I C E; cbn [exec calm] in *.
  - injection E as <- <-. split; [assumption|constructor].
  - destruct (step t a s) as [[s1 e1]|] eqn:ES; [|discriminate]. destruct (exec r s1) as [[s2 e2]|] eqn:ER; [|discriminate]. injection E as <- <-.
    apply andb_true_iff in C as [C1 C2]. destruct (step_sim t a s s1 e1 I) as [I1 R1]; [|exact ES|].
    { destruct a; try exact Logic.I; destruct (locker s); congruence. }
    destruct (IH s1 s2 e2 I1 C2 ER) as [I2 R2]. split; [assumption|]. eapply seqrun_app; eassumption.
Qed.
Lemma inv_start init max : Inv (start init max : st).
Proof. split; cbn; intros; [split; discriminate|discriminate]. Qed.
End P.
