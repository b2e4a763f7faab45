(** C19: dynamic-wind. *)
From Coq Require Import List Bool PeanoNat Lia.
From Verif Require Import Outcome WindModel WindSpec WindProofs.
Import ListNotations.

(** Over every history of calls, returns, dynamic-winds, captures, jumps, prompts and aborts: the VM never
    trips over its handler chain, extents are entered only from outside and left innermost first, and the
    chain is exactly the extents entered and not yet left.  (orderly: see dynwind_abort_refuted.) *)
Theorem dynwind_balanced_partial ls : orderly ls init = true ->
  run ls init = Err \/ exists s, run ls init = Ok s /\ replay (trace s) [] = Some (handlers s).
Proof.
  intros O. destruct (run_inv ls init init_inv O) as [E|(s & E & par & _ & _ & _ & R)]; [now left|right; eauto].
Qed.
(** Outside jumps, user code is inside exactly the bodies on its continuation. *)
Theorem dynwind_extents_partial ls s : orderly ls init = true -> run ls init = Ok s -> settled (cont s) = true -> handlers s = extents (cont s).
Proof.
  intros O E S. destruct (run_inv ls init init_inv O) as [E'|(s' & E' & par & _ & W & _)]; [congruence|].
  assert (s' = s) by congruence. subst s'. revert S. induction W; cbn [settled extents]; intros; try discriminate; auto. f_equal. auto.
Qed.
Lemma run_ok ls s : orderly ls init = true -> run ls init = Ok s -> Inv s.
Proof. intros O E. destruct (run_inv ls init init_inv O) as [E'|(s' & E' & I)]; [congruence|]. congruence. Qed.

(** A jump.  Its thunks return at once here (one LReturn each); dynwind_thunk_partial is about thunks that do more. *)
Lemma run_app a b s : run (a ++ b) s = do s' <- run a s; run b s'.
Proof. revert s. induction a as [|l r IH]; intros s; [reflexivity|]. cbn [app run]. destruct (step l s); cbn [bind]; auto. Qed.
Definition after_jump (k : list frame) (c : chain) (es : list ev) (s : st) : st :=
  {| cont := k; handlers := c; caps := caps s; fresh := fresh s; trace := trace s ++ es |}.
Definition body_run (hd : hdlist) k c (n : nat) (s : st) : res st := do s' <- throw_cont_body hd k c s; run (repeat LReturn n) s'.
Definition plan (hd : hdlist) : list ev :=
  flat_map (fun x : bool * chain => match x with (_, []) => [] | (true, e :: _) => [RunBefore e; Entered e] | (false, e :: _) => [Left e] end) hd.
Lemma body_plan par n hd k c d : path par n d hd c -> forall s, handlers s = d ->
  body_run hd k c (length hd) s = Ok (after_jump k c (plan hd) s).
Proof.
  induction 1 as [c|e c r t P IH|e c r t O P IH]; intros s E; unfold body_run; cbn [throw_cont_body bind length repeat run plan flat_map].
  - unfold after_jump, set_cont. subst c. now rewrite app_nil_r.
  - cbn [step cont emit set_handlers set_cont]. cbv zeta. fold (body_run r k t (length r)).
    match goal with |- (do s0 <- throw_cont_body _ _ _ ?x; _) = _ => specialize (IH x eq_refl) end. unfold body_run in IH. rewrite IH.
    unfold after_jump. cbn. now rewrite <- app_assoc.
  - cbn [step cont emit set_handlers set_cont]. cbv zeta.
    match goal with |- (do s0 <- throw_cont_body _ _ _ ?x; _) = _ => specialize (IH x eq_refl) end. unfold body_run in IH. rewrite IH.
    unfold after_jump. cbn. now rewrite <- !app_assoc.
Qed.
Lemma plan_outs xs c : plan (outs xs c) = map Left xs.
Proof. induction xs as [|x r IH]; [reflexivity|]. cbn [outs plan flat_map app map]. fold (plan (outs r c)). now rewrite IH. Qed.
Lemma plan_app a b : plan (a ++ b) = plan a ++ plan b. Proof. apply flat_map_app. Qed.
Lemma plan_ins ys c : plan (ins ys c) = flat_map (fun e => [RunBefore e; Entered e]) (rev ys).
Proof. induction ys as [|x r IH]; [reflexivity|]. cbn [ins rev]. rewrite plan_app, flat_map_app, IH. reflexivity. Qed.
Lemma len_outs xs c : length (outs xs c) = length xs. Proof. induction xs; cbn; auto. Qed.
Lemma len_ins ys c : length (ins ys c) = length ys. Proof. induction ys; cbn; auto. rewrite app_length, IHys. cbn. lia. Qed.

(** A jump to captured continuation k: the extents the two share are untouched, the after thunks of those left
    run innermost first, the before thunks of those entered outermost first, and control is at k with the chain
    k was captured with. *)
Theorem dynwind_jump_partial ls s i k c : orderly ls init = true -> run ls init = Ok s -> nth_error (caps s) i = Some (k, c) ->
  exists exits enters common, handlers s = exits ++ common /\ c = enters ++ common /\
    (forall e, In e exits -> ~ In e c) /\ (forall e, In e enters -> ~ In e (handlers s)) /\
    run (LThrow i :: repeat LReturn (length exits + length enters)) s =
      Ok {| cont := k; handlers := c; caps := caps s; fresh := fresh s;
            trace := trace s ++ map Left exits ++ flat_map (fun e => [RunBefore e; Entered e]) (rev enters) |}.
Proof.
  intros O E N. destruct (run_ok _ _ O E) as (par & Oh & W & F & R). pose proof (nth_error_In _ _ N) as Hi.
  rewrite Forall_forall in F. destruct (F _ Hi) as [_ Oc]. cbn [snd] in Oc.
  destruct (calculate_spec _ _ _ _ Oc Oh) as (xs & ys & com & Ex & Ey & X & Y & C). exists xs, ys, com. repeat (split; [assumption|]).
  cbn [run step]. rewrite N.
  pose proof (body_plan _ _ _ k _ _ (calculate_path _ _ _ _ Oc Oh) s eq_refl) as B. unfold body_run in B.
  rewrite C, app_length, len_outs, len_ins in B. rewrite C. rewrite B. unfold after_jump. now rewrite plan_app, plan_outs, plan_ins.
Qed.
(** An abort to a prompt leaves the extents above the prompt, innermost first. *)
Lemma abort_plan k t xs : forall s, handlers s = xs ++ t -> ~ In (hd 0 xs) t \/ xs = [] -> NoDup (xs ++ t) ->
  (do s' <- abort_step k t s; run (repeat LReturn (length xs)) s') = Ok (after_jump k t (map Left xs) s).
Proof.
  induction xs as [|x r IH]; intros s E D N; unfold abort_step, chain_eq; rewrite E.
  - cbn [app length repeat run map]. unfold after_jump. rewrite app_nil_r. destruct t as [|e t]; [|destruct (list_eq_dec Nat.eq_dec (e :: t) (e :: t)) as [_|Hn]; [|now destruct Hn]];
    cbn [bind]; unfold set_cont; now rewrite E.
  - cbn [app]. destruct (list_eq_dec Nat.eq_dec t (x :: r ++ t)) as [Hq|_].
    + exfalso. apply (f_equal (@length nat)) in Hq. cbn in Hq. rewrite app_length in Hq. lia.
    + cbn [bind length repeat run step cont emit set_handlers set_cont]. inversion N; subst. rewrite IH; [|reflexivity| |assumption].
      * unfold after_jump. cbn. now rewrite <- app_assoc.
      * destruct r as [|y r]; [now right|left]. cbn [hd]. cbn [app] in H2. inversion H2; subst. intros Hi. apply H3. apply in_or_app. now right.
Qed.
Theorem dynwind_abort_partial ls s tag k c : orderly ls init = true -> run ls init = Ok s ->
  prompt_visible tag (cont s) = true -> find_prompt tag (cont s) = Some (k, c) ->
  exists exits, handlers s = exits ++ c /\
    run (LAbort tag :: repeat LReturn (length exits)) s =
      Ok {| cont := k; handlers := c; caps := caps s; fresh := fresh s; trace := trace s ++ map Left exits |}.
Proof.
  intros O E V N. destruct (run_ok _ _ O E) as (par & Oh & W & F & R). destruct (find_prompt_wc _ _ _ _ _ _ _ W V N) as (_ & xs & Ex).
  exists xs. split; [assumption|]. cbn [run step]. rewrite N. apply okc_nodup in Oh. rewrite Ex in Oh. apply abort_plan; [assumption| |assumption].
  destruct xs as [|x r]; [now right|left]. cbn [hd app] in *. inversion Oh; subst. intros Hi. apply H1. apply in_or_app. now right.
Qed.
(** Whatever a thunk (or any user code) did in between, if control is back at the same continuation then the
    chain is what it was: a thunk that returns does not disturb the jump it belongs to. *)
Fixpoint no_abort (k : list frame) : bool :=
  match k with [] => true | FAbort _ _ :: _ => false | FThrow _ _ _ _ :: _ => true | _ :: r => no_abort r end.
Lemma path_fun par n par' n' d hd c : path par n d hd c -> forall d', path par' n' d' hd c -> d = d'.
Proof. intros P d' P'. inversion P; subst; inversion P'; subst; reflexivity. Qed.
Lemma wc_fun par n k c : wc par n k c -> no_abort k = true -> forall par' n' c', wc par' n' k c' -> c = c'.
Proof.
  induction 1; cbn [no_abort]; intros A par' n' c' W'; try discriminate; inversion W'; subst; auto.
  - eapply IHwc; eassumption.
  - eapply IHwc; eassumption.
  - f_equal. eapply IHwc; eassumption.
  - eapply IHwc; eassumption.
  - eapply path_fun; eassumption.
Qed.
Lemma orderly_app a b s s' : run a s = Ok s' -> orderly (a ++ b) s = orderly a s && orderly b s'.
Proof.
  revert s. induction a as [|l r IH]; intros s E; cbn [run app orderly] in *; [now injection E as <-|].
  destruct (step l s) as [s1| | |] eqn:ES; try discriminate. cbn [bind] in E. rewrite (IH s1 E). now rewrite andb_assoc.
Qed.
Theorem dynwind_thunk_partial ls s ls' s' : orderly (ls ++ ls') init = true -> run ls init = Ok s -> run ls' s = Ok s' ->
  cont s' = cont s -> no_abort (cont s) = true -> handlers s' = handlers s.
Proof.
  intros O E E' C A. pose proof (run_app ls ls' init) as R. rewrite E in R. cbn [bind] in R. rewrite E' in R.
  destruct (run_ok _ _ O R) as (par' & _ & W' & _). rewrite (orderly_app _ _ _ _ E) in O. apply andb_true_iff in O as [O _].
  destruct (run_ok _ _ O E) as (par & _ & W & _). rewrite C in W'. symmetry. eapply wc_fun; eassumption.
Qed.
(** At exit what is still open is left, innermost first: every extent entered has been left. *)
Theorem dynwind_exit_partial ls s : orderly ls init = true -> run ls init = Ok s -> replay (trace (flush s)) [] = Some [].
Proof.
  intros O E. destruct (run_ok _ _ O E) as (par & _ & _ & _ & R). unfold flush. cbn [trace emit set_handlers]. rewrite (replay_app _ _ _ _ R).
  clear. induction (handlers s) as [|x r IH]; [reflexivity|]. cbn [map replay]. destruct (Nat.eq_dec x x) as [_|Hn]; [assumption|now destruct Hn].
Qed.
(** Balance, counted: an extent is left as often as it is entered. *)
Definition count_in (e : nat) (es : list ev) : nat := length (filter (fun x => match x with Entered y => Nat.eqb y e | _ => false end) es).
Definition count_out (e : nat) (es : list ev) : nat := length (filter (fun x => match x with Left y => Nat.eqb y e | _ => false end) es).
Lemma replay_count e : forall es c c', replay es c = Some c' -> count_in e es + count_occ Nat.eq_dec c e = count_out e es + count_occ Nat.eq_dec c' e.
Proof.
  induction es as [|x es IH]; intros c c' R; cbn [replay] in R; [injection R as <-; reflexivity|].
  unfold count_in, count_out in *. destruct x as [y|y|y]; cbn [filter].
  - now apply IH.
  - destruct (in_dec Nat.eq_dec y c); [discriminate|]. apply IH in R. cbn [count_occ] in R. destruct (Nat.eq_dec y e), (Nat.eqb_spec y e); try contradiction; cbn [length]; lia.
  - destruct c as [|z c]; [discriminate|]. destruct (Nat.eq_dec z y) as [->|]; [|discriminate]. apply IH in R. cbn [count_occ].
    destruct (Nat.eq_dec y e), (Nat.eqb_spec y e); try contradiction; cbn [length]; lia.
Qed.
Theorem dynwind_counts_partial ls s e : orderly ls init = true -> run ls init = Ok s ->
  count_in e (trace (flush s)) = count_out e (trace (flush s)).
Proof. intros O E. pose proof (replay_count e _ _ _ (dynwind_exit_partial _ _ O E)) as H. cbn [count_occ] in H. lia. Qed.

(** Non-vacuity: a body captured, left, re-entered through the continuation, with a nested extent inside, then left again. *)
Definition wind_demo : list label :=
  [LWind; LReturn; LWind; LReturn; LCapture; LReturn; LReturn; LReturn; LReturn; LWind; LReturn; LThrow 0; LReturn; LReturn; LReturn; LReturn; LReturn; LReturn; LReturn].
Theorem dynwind_demo : orderly wind_demo init = true /\ exists s, run wind_demo init = Ok s /\ cont s = [] /\ handlers s = [] /\
  trace s = [Entered 0; Entered 1; Left 1; Left 0; Entered 2; Left 2; RunBefore 0; Entered 0; RunBefore 1; Entered 1; Left 1; Left 0].
Proof. split; [vm_compute; reflexivity|]. eexists. vm_compute. repeat split. Qed.
Example dynwind_abort_demo : let ls := [LPrompt 7; LWind; LReturn; LWind; LReturn; LAbort 7; LReturn; LReturn] in
  orderly ls init = true /\ exists s, run ls init = Ok s /\ cont s = [FPrompt 7 []] /\ trace s = [Entered 0; Entered 1; Left 1; Left 0].
Proof. cbv zeta. split; [vm_compute; reflexivity|]. eexists. vm_compute. repeat split. Qed.
(** Without orderly the claim is false of the code.  In extent 0 a prompt is set and extent 1 entered; a jump out of
    both runs the after thunk of 1, then that of 0, which aborts to the prompt - it is still on the continuation below
    the jump.  Control is back in the body of 0 with the chain empty, and when that body returns
    pop_dynamic_handlers aborts the process. *)
Theorem dynwind_abort_refuted : let ls := [LCapture; LWind; LReturn; LPrompt 7; LWind; LReturn; LThrow 0; LReturn; LAbort 7] in
  (exists s, run ls init = Ok s /\ cont s = [FPrompt 7 [0]; FBody 0] /\ handlers s = []) /\
  run (ls ++ [LReturn; LReturn]) init = Panic.
Proof. cbv zeta. split; [eexists; vm_compute; repeat split|vm_compute; reflexivity]. Qed.

Print Assumptions dynwind_balanced_partial.
Print Assumptions dynwind_extents_partial.
Print Assumptions dynwind_jump_partial.
Print Assumptions dynwind_abort_partial.
Print Assumptions dynwind_thunk_partial.
Print Assumptions dynwind_exit_partial.
Print Assumptions dynwind_counts_partial.
Print Assumptions dynwind_demo.
Print Assumptions dynwind_abort_refuted.
