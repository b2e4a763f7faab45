(** C53  Semaphores, latches and barriers, under every schedule. *)
From Coq Require Import List Bool ZArith Lia.
From Verif Require Import SemaSpec SemaProofs.
From Verif Require SemModel LatchModel.
From Verif Require Import BarrierModel BarrierSpec BarrierProofs.
Import ListNotations.
Local Open Scope Z_scope.

(** * Semaphores *)
(** No more tokens are taken than there were at the start and were released; at every moment. *)
Theorem semaphore_tokens n s h : SemModel.exec n s h -> acquired h <= Z.max 0 (n + released h).
Proof.
  intro E. pose proof (sem_count _ _ _ E). pose proof (sem_bound _ _ _ E). lia.
Qed.
Theorem semaphore_history_prefix n s h1 h2 : SemModel.exec n s (h1 ++ h2) -> exists s', SemModel.exec n s' h1.
Proof.
  intro E. remember (h1 ++ h2) as h eqn:Q. revert h2 Q. induction E as [|s h e s' E IH ST]; intros h2 Q.
  - symmetry in Q. apply app_eq_nil in Q. destruct Q as (-> & ->). eexists. constructor.
  - assert (L : e = [] \/ exists x, e = [x]) by (inversion ST; subst; eauto).
    destruct L as [->|(x & ->)].
    + rewrite app_nil_r in Q. eapply IH; eauto.
    + destruct h2 as [|y h2] using rev_ind.
      * rewrite app_nil_r in Q. subst h1. exists s'. eapply SemModel.E_step; eauto.
      * rewrite app_assoc in Q. apply app_inj_tail in Q. destruct Q as (-> & ->). eapply IH; eauto.
Qed.
(** No lost wake-up: when all running calls are asleep, there is no token left. *)
Theorem semaphore_no_lost_wakeup n s h :
  SemModel.exec n s h -> SemModel.want s = [] -> SemModel.asleep s <> [] -> n + released h - acquired h <= 0.
Proof.
  intros E W A. pose proof (sem_count _ _ _ E). pose proof (sem_wake _ _ _ E A) as Q. rewrite W in Q. cbn in Q. lia.
Qed.
(** and as long as there is one, a call that is awake can take it *)
Theorem semaphore_acquires n s h t tm :
  SemModel.exec n s h -> 0 < n + released h - acquired h -> In (t, tm) (SemModel.want s) ->
  exists s', SemModel.step s [SemModel.Acquired t] s'.
Proof.
  intros E L I. rewrite <- (sem_count _ _ _ E) in L. apply in_split in I. destruct I as (a & b & I).
  eexists. eapply SemModel.Take; eauto.
Qed.

(** * Latches *)
(** latch-await returns #t only when the latch is open. *)
Theorem latch_passed_open n s h1 t h2 :
  0 < n -> LatchModel.exec n s (h1 ++ LatchModel.Passed t :: h2) -> opened n h1.
Proof.
  intros P E. remember (h1 ++ LatchModel.Passed t :: h2) as h eqn:Q. revert h2 Q.
  induction E as [|s h e s' E IH ST]; intros h2 Q; [now apply app_cons_not_nil in Q|].
  assert (L : e = [] \/ exists x, e = [x]) by (inversion ST; subst; eauto).
  destruct L as [->|(x & ->)]; [rewrite app_nil_r in Q; eapply IH; eauto|].
  destruct h2 as [|y h2] using rev_ind.
  - apply app_inj_tail in Q. destruct Q as (-> & ->). inversion ST; subst.
    destruct (latch_inv _ _ _ P E) as (_ & IC).
    destruct (latch_inv _ _ _ P E) as (IO & _).
    assert (D : opened n h1 \/ ~ opened n h1).
    { clear - h1. induction h1 as [|e h IH] using rev_ind.
      - destruct (Z_le_gt_dec n 0) as [L|L].
        + left. right. exists [], []. auto.
        + right. intros [(r & [])|(a & b & Q & L')]. symmetry in Q. apply app_eq_nil in Q. destruct Q; subst. cbn in L'. lia.
      - destruct IH as [[(r & C)|(a & b & Q & L)]|IH].
        + left. left. exists r. apply in_or_app; auto.
        + left. right. exists a, (b ++ [e]). subst. now rewrite app_assoc.
        + destruct (Z_le_gt_dec n (decs (h ++ [e]))) as [L|L].
          * left. right. exists (h ++ [e]), []. now rewrite app_nil_r.
          * assert (CC : (exists r, e = LatchModel.Clear r) \/ ~ (exists r, e = LatchModel.Clear r))
              by (destruct e; [right|right|right|right|left; eauto]; intros (r0 & X); discriminate).
            destruct CC as [(r & ->)|CC].
            -- left. left. exists r. apply in_or_app. right. now left.
            -- right. intros [(r & C)|(a & b & Q & L')].
               ++ apply in_app_or in C. destruct C as [C|[C|[]]]; [apply IH; left; exists r; auto|apply CC; eauto].
               ++ destruct b as [|x b] using rev_ind.
                  ** rewrite app_nil_r in Q. subst. lia.
                  ** rewrite app_assoc in Q. apply app_inj_tail in Q. destruct Q as (Q & _).
                     apply IH. right. exists a, b. auto. }
    destruct D as [D|D]; auto. destruct (IC D). lia.
  - rewrite app_comm_cons, app_assoc in Q. apply app_inj_tail in Q. destruct Q as (-> & _). eapply IH; eauto.
Qed.
(** An open latch stays open: nobody sleeps on it, in any later state, and every call can return #t. *)
Theorem latch_open n s h : 0 < n -> LatchModel.exec n s h -> opened n h ->
  LatchModel.asleep s = [] /\
  (forall t tm, In (t, tm) (LatchModel.want s) -> exists s', LatchModel.step s [LatchModel.Passed t] s') /\
  (forall h', opened n (h ++ h')).
Proof.
  intros P E O. destruct (latch_inv _ _ _ P E) as (IO & _). destruct (IO O) as (A & C).
  split; [exact A|]. split.
  - intros t tm I. apply in_split in I. destruct I as (a & b & I). eexists. eapply LatchModel.Pass; eauto.
  - intro h'. destruct O as [(r & Q)|(h1 & h2 & -> & Q)].
    + left. exists r. apply in_or_app; auto.
    + right. exists h1, (h2 ++ h'). now rewrite app_assoc.
Qed.
(** latch-dec! on a closed latch returns what is left. *)
Theorem latch_dec_returns n s h k r s' :
  0 < n -> LatchModel.exec n s h -> ~ opened n h -> LatchModel.step s [LatchModel.Dec k r] s' -> r = n - decs h - k.
Proof.
  intros P E O ST. destruct (latch_inv _ _ _ P E) as (_ & IC). destruct (IC O).
  inversion ST; subst; lia.
Qed.

(** * Barriers *)
(** Nobody returns its place before the threshold is reached: all places of the generation have been
    given out, and the action, if there is one, has run once for it. *)
Theorem barrier_waits_for_all thr action s h1 t g p h2 :
  1 <= thr -> exec thr action s (h1 ++ ERet t g p :: h2) -> calm (h1 ++ ERet t g p :: h2) ->
  (forall i, 0 <= i < thr -> In i (places g h1)) /\
  (if action then exists u, actions g h1 = [u] else actions g h1 = []).
Proof.
  intros T E C. destruct (i_ret _ _ _ _ (exec_inv _ _ T _ _ E C) _ _ _ _ _ eq_refl) as ((n & L & Q) & A & _).
  split; [|exact A]. intros i I. rewrite Q. now apply countdown_in.
Qed.
(** The places of a generation are threshold - 1, threshold - 2, ... in the order of arrival, each
    given out once. *)
Theorem barrier_places thr action s h g : 1 <= thr -> exec thr action s h -> calm h ->
  exists n, places g h = countdown thr n /\ NoDup (places g h).
Proof.
  intros T E C. pose proof (exec_inv _ _ T _ _ E C) as [IB IL IG IC IN IF IP IR IW IA IRT].
  destruct (Z_lt_le_dec g 0) as [L|L].
  - exists O. cut (places g h = []); [intros ->; split; [reflexivity|constructor]|].
    assert (G : forall s h, exec thr action s h -> 0 <= gen s /\ (forall c g p, In c (want s ++ asleep s) -> loc c = Some (g, p) -> 0 <= g) -> True) by auto.
    clear G. assert (N : forall t p, ~ In (EArrive t g p) h).
    { clear - E L. assert (Q : 0 <= gen s /\ forall t p, ~ In (EArrive t g p) h).
      { induction E as [|s h e s' E (G & IH) ST]; [cbn; split; [lia|auto]|].
        inversion ST; subst; cbn [gen set_want set_acting set_acted set_asleep set_broken set_late set_count set_gen wake_all release];
          try (match goal with EN : enter _ ?c s = (?s1, _, _) |- _ => 
            assert (G1 : gen s1 = gen s) by (destruct c as [? ? [[? ?]|]]; cbn in EN; inversion EN; reflexivity) end; rewrite ?G1);
          (split; [lia|]); intros u q I; apply in_app_or in I; destruct I as [I|I]; try (eapply IH; eauto; fail);
          try (destruct c as [w tm [[g1 p1]|]]; cbn in *; 
               match goal with EN : _ = (_, _, _) |- _ => inversion EN; subst end; intuition (try discriminate);
               match goal with Q : EArrive _ _ _ = EArrive _ _ _ |- _ => inversion Q; subst; lia end);
          try (cbn in I; intuition (try discriminate); fail).
        - destruct raised; cbn in I; intuition discriminate. }
      apply Q. }
    clear - N. induction h as [|e h IH]; [reflexivity|]. unfold places; cbn [flat_map].
    fold (places g h). rewrite IH by (intros t p I; apply (N t p); now right).
    destruct e; auto. destruct (Z.eqb_spec g g0); auto. subst. exfalso. apply (N t p). now left.
  - destruct (Z_lt_le_dec g (gen s)) as [L1|L1].
    + destruct (IP g) as ((n & _ & ->) & _); [lia|]. exists n. split; [auto|apply countdown_nodup].
    + destruct (Z.eq_dec g (gen s)) as [->|NE].
      * eexists. split; [exact IN|rewrite IN; apply countdown_nodup].
      * destruct (IF g) as (-> & _); [lia|]. exists O. split; [reflexivity|constructor].
Qed.
(** The action runs at most once for a generation. *)
Theorem barrier_action_once thr s h g : 1 <= thr -> exec thr true s h -> calm h -> 0 <= g -> (length (actions g h) <= 1)%nat.
Proof.
  intros T E C G. pose proof (exec_inv _ _ T _ _ E C) as [IB IL IG IC IN IF IP IR IW IA IRT].
  destruct (Z_lt_le_dec g (gen s)) as [L1|L1].
  - destruct (IP g) as (_ & (t & ->)); [lia|]. cbn. lia.
  - destruct (Z.eq_dec g (gen s)) as [->|NE].
    + destruct IR as [(_ & _ & _ & ->)|(_ & _ & [(t & _ & _ & ->)|(t & _ & _ & ->)])]; cbn; lia.
    + destruct (IF g) as (_ & ->); [lia|]. cbn. lia.
Qed.
(** No lost wake-up, with time-outs, resets and raising actions too: when all running calls are asleep,
    the barrier is not broken and the generation of none of them is over; *)
Theorem barrier_no_lost_wakeup thr action s h : exec thr action s h ->
  want s = [] -> acting s = [] -> acted s = [] -> late s = [] -> asleep s <> [] ->
  broken s = false /\ Forall (fun c => exists g p, loc c = Some (g, p) /\ gen s <= g) (asleep s).
Proof.
  intros E _ _ A L S. destruct (exec_nl _ _ _ _ E S) as (N1 & N2). split; [|exact N1].
  destruct (broken s); auto. destruct (N2 eq_refl); congruence.
Qed.
(** A call that is awake goes on: with its place when its generation is over, with timeout-val when the
    barrier is broken, and otherwise it goes to sleep or to the action, whatever its place. *)
Theorem barrier_goes_on thr action s c : In c (want s) ->
  (broken s = true -> exists s', step thr action s [EBroken (who c)] s') /\
  (forall g p, broken s = false -> loc c = Some (g, p) -> g < gen s -> exists s', step thr action s [ERet (who c) g p] s') /\
  exists e s', step thr action s e s' /\ (length (want s') < length (want s) \/ asleep s' = [])%nat.
Proof.
  intros I. apply in_split in I. destruct I as (a & b & I). split; [|split].
  - intros B. destruct (enter thr c s) as ((s1 & g) & p) eqn:N. eexists. eapply S_broken; eauto.
    destruct c as [w tm [[g1 p1]|]]; cbn in N; inversion N; subst; auto.
  - intros g p B L G. eexists.
    assert (N : enter thr c s = (s, g, p)) by (unfold enter; now rewrite L).
    pose proof (S_over thr action s a c b s g p I N B G) as ST. unfold arrival in ST. rewrite L in ST. exact ST.
  - destruct (enter thr c s) as ((s1 & g) & p) eqn:N.
    destruct (broken s1) eqn:B; [|destruct (Z_lt_dec g (gen s1)); [|destruct (Z.eq_dec p 0); [destruct action eqn:AC|]]].
    1: exists [EBroken (who c)]; eexists; split; [eapply S_broken; eauto|left].
    2: do 2 eexists; split; [eapply S_over; eauto|left].
    3: do 2 eexists; split; [eapply S_last_action; eauto|left].
    4: do 2 eexists; split; [eapply S_last; eauto|right; reflexivity].
    4: do 2 eexists; split; [eapply S_wait; eauto|left].
    all: cbn; rewrite I, !app_length; cbn; lia.
Qed.
(** and in a calm history fewer than threshold calls have arrived in it. *)
Theorem barrier_sleeps_below_threshold thr action s h : 1 <= thr -> exec thr action s h -> calm h ->
  acting s = [] -> acted s = [] -> Z.of_nat (length (places (gen s) h)) < thr.
Proof.
  intros T E C A1 A2. pose proof (exec_inv _ _ T _ _ E C) as [IB IL IG IC IN IF IP IR IW IA IRT].
  rewrite IN. unfold countdown. rewrite map_length, seq_length.
  destruct IR as [(R & _)|(_ & _ & [(t & Q & _)|(t & _ & Q & _)])]; [lia|congruence|congruence].
Qed.

(** * What barriers do not give *)
Local Ltac nx E r := eapply E_step in E; [|eapply r; cbn; try reflexivity; cbn; try lia]; cbv in E.
(** barrier-reset! while the action of generation 0 runs: the end of the action ends generation 1 as
    well, and the only thread that has come in generation 1 of a barrier of 2 is let through.  No reset
    happens after its arrival, nothing times out, no action raises. *)
Theorem barrier_reset_refuted : exists s h,
  exec 2 true s (h ++ [ERet 3%nat 1 1]) /\ places 1 (h ++ [ERet 3%nat 1 1]) = [1] /\ actions 1 h = [] /\
  (forall e, In e h -> match e with ETimeout _ | EAction _ _ false => False | _ => True end) /\
  exists h1 h2, h = h1 ++ EArrive 3%nat 1 1 :: h2 /\ ~ In EReset h2.
Proof.
  pose proof (E_init 2 true) as E.
  nx E (S_call 2 true init 1%nat false).
  nx E (fun s => S_wait 2 true s [] (Call 1%nat false None) []).
  nx E (fun s => S_call 2 true s 2%nat false).
  nx E (fun s => S_last_action 2 true s [] (Call 2%nat false None) []).
  nx E (S_reset 2 true).
  nx E (fun s => S_call 2 true s 3%nat false).
  nx E (fun s => S_wait 2 true s [] (Call 3%nat false None) [Call 1%nat false (Some (0, 1))]).
  nx E (fun s => S_action 2 true s [] 2%nat 0 [] true).
  nx E (fun s => S_acted 2 true s [] 2%nat 0 false []).
  nx E (fun s => S_over 2 true s [] (Call 3%nat false (Some (1, 1))) [Call 1%nat false (Some (0, 1))]).
  eexists _, [EArrive 1%nat 0 1; EArrive 2%nat 0 0; EReset; EArrive 3%nat 1 1; EAction 2%nat 0 true; ERet 2%nat 0 0].
  split; [exact E|]. split; [reflexivity|]. split; [reflexivity|]. split.
  - intros e I. cbn in I. intuition (subst; auto).
  - exists [EArrive 1%nat 0 1; EArrive 2%nat 0 0; EReset], [EAction 2%nat 0 true; ERet 2%nat 0 0].
    split; [reflexivity|]. cbn. intuition discriminate.
Qed.
(** A wait that times out at the moment the last thread comes: the generation is complete and the last
    thread has its place, and still the barrier ends up broken and the next call fails. *)
Theorem barrier_timeout_refuted : exists s h,
  exec 2 false s h /\ places 0 h = [1; 0] /\ In (ERet 2%nat 0 0) h /\ In (ETimeout 1%nat) h /\
  want s = [] /\ asleep s = [] /\ broken s = true /\ exists s', exec 2 false s' (h ++ [EBroken 3%nat]).
Proof.
  pose proof (E_init 2 false) as E.
  nx E (S_call 2 false init 1%nat true).
  nx E (fun s => S_wait 2 false s [] (Call 1%nat true None) []).
  nx E (fun s => S_timeout 2 false s [] (Call 1%nat true (Some (0, 1))) []).
  nx E (fun s => S_call 2 false s 2%nat false).
  nx E (fun s => S_last 2 false s [] (Call 2%nat false None) []).
  nx E (fun s => S_late 2 false s [] 1%nat []).
  pose proof E as E2.
  nx E2 (fun s => S_call 2 false s 3%nat false).
  nx E2 (fun s => S_broken 2 false s [] (Call 3%nat false None) []).
  eexists _, _. split; [exact E|]. cbn. do 6 (split; [cbn; tauto|]).
  eexists. exact E2.
Qed.

(** * Concrete cases *)
(** a barrier of 2 with an action, calm, both threads through *)
Example barrier_ok : exists s, exec 2 true s
    [EArrive 1%nat 0 1; EArrive 2%nat 0 0; EAction 2%nat 0 true; ERet 2%nat 0 0; ERet 1%nat 0 1] /\
  calm [EArrive 1%nat 0 1; EArrive 2%nat 0 0; EAction 2%nat 0 true; ERet 2%nat 0 0; ERet 1%nat 0 1].
Proof.
  pose proof (E_init 2 true) as E.
  nx E (S_call 2 true init 1%nat false).
  nx E (fun s => S_wait 2 true s [] (Call 1%nat false None) []).
  nx E (fun s => S_call 2 true s 2%nat false).
  nx E (fun s => S_last_action 2 true s [] (Call 2%nat false None) []).
  nx E (fun s => S_action 2 true s [] 2%nat 0 [] true).
  nx E (fun s => S_acted 2 true s [] 2%nat 0 false []).
  nx E (fun s => S_over 2 true s [] (Call 1%nat false (Some (0, 1))) []).
  eexists. split; [exact E|]. repeat constructor.
Qed.
(** a thread asleep on a barrier of 2 *)
Example barrier_sleeps : exists s h, exec 2 false s h /\ calm h /\ want s = [] /\ acting s = [] /\ acted s = [] /\
  late s = [] /\ length (asleep s) = 1%nat /\ places 0 h = [1].
Proof.
  pose proof (E_init 2 false) as E.
  nx E (S_call 2 false init 1%nat false).
  nx E (fun s => S_wait 2 false s [] (Call 1%nat false None) []).
  eexists _, _. split; [exact E|]. repeat constructor.
Qed.
Local Ltac ns E r := eapply SemModel.E_step in E; [|eapply r; cbn; try reflexivity; cbn; try lia; auto]; cbn in E.
(** a semaphore of 0: one call asleep, woken by a release, which it takes *)
Example semaphore_ok : exists s s',
  SemModel.exec 0 s [SemModel.Call 1%nat] /\ SemModel.want s = [] /\ SemModel.asleep s = [(1%nat, false)] /\
  SemModel.exec 0 s' [SemModel.Call 1%nat; SemModel.Released 1; SemModel.Acquired 1%nat].
Proof.
  pose proof (SemModel.E_init 0) as E.
  ns E (fun s => SemModel.Call_ s 1%nat false).
  ns E (fun s => SemModel.Sleep s [] 1%nat false []). pose proof E as E2.
  ns E2 (fun s => SemModel.Release1 s [] (1%nat, false) []).
  ns E2 (fun s => SemModel.Take s [] 1%nat false []).
  eexists _, _. split; [exact E|]. split; [reflexivity|]. split; [reflexivity|exact E2].
Qed.
Local Ltac nl E r := eapply LatchModel.E_step in E; [|eapply r; cbn; try reflexivity; cbn; try lia; auto]; cbn in E.
(** a latch of 2: one call asleep, two decrements, let through *)
Example latch_ok : exists s s',
  LatchModel.exec 2 s [LatchModel.Call 1%nat; LatchModel.Dec 1 1] /\ LatchModel.asleep s = [(1%nat, false)] /\
  ~ opened 2 [LatchModel.Call 1%nat; LatchModel.Dec 1 1] /\
  LatchModel.exec 2 s' [LatchModel.Call 1%nat; LatchModel.Dec 1 1; LatchModel.Dec 1 0; LatchModel.Passed 1%nat].
Proof.
  pose proof (LatchModel.E_init 2) as E.
  nl E (fun s => LatchModel.Call_ s 1%nat false).
  nl E (fun s => LatchModel.Sleep s [] 1%nat false []).
  nl E (fun s => LatchModel.Dec_more s 1). pose proof E as E2.
  nl E2 (fun s => LatchModel.Dec_last s 1).
  nl E2 (fun s => LatchModel.Pass s [] 1%nat false []).
  eexists _, _. split; [exact E|]. split; [reflexivity|]. split; [|exact E2].
  intros [(r & I)|(a & b & Q & L)].
  - cbn in I. intuition discriminate.
  - destruct a as [|x [|y [|z a]]]; cbn in Q; inversion Q; subst; cbn in L; lia.
Qed.

Print Assumptions semaphore_tokens.
Print Assumptions semaphore_history_prefix.
Print Assumptions semaphore_no_lost_wakeup.
Print Assumptions semaphore_acquires.
Print Assumptions latch_passed_open.
Print Assumptions latch_open.
Print Assumptions latch_dec_returns.
Print Assumptions barrier_waits_for_all.
Print Assumptions barrier_places.
Print Assumptions barrier_action_once.
Print Assumptions barrier_no_lost_wakeup.
Print Assumptions barrier_goes_on.
Print Assumptions barrier_sleeps_below_threshold.
Print Assumptions barrier_reset_refuted.
Print Assumptions barrier_timeout_refuted.
