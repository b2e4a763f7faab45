From Coq Require Import List Bool PeanoNat Lia.
From Verif Require Import Outcome WindModel WindSpec.
Import ListNotations.

(** Every entry has one tail: par e is the chain below e. *)
Inductive okc (par : nat -> chain) (n : nat) : chain -> Prop :=
| ok_nil : okc par n []
| ok_cons e r : par e = r -> e < n -> ~ In e r -> okc par n r -> okc par n (e :: r).
(** hd leads from chain c to chain t *)
Inductive path (par : nat -> chain) (n : nat) : chain -> hdlist -> chain -> Prop :=
| p_nil c : path par n c [] c
| p_out e c r t : path par n c r t -> path par n (e :: c) ((false, e :: c) :: r) t
| p_in e c r t : okc par n (e :: c) -> path par n (e :: c) r t -> path par n c ((true, e :: c) :: r) t.
(** the chain that goes with a continuation *)
Inductive wc (par : nat -> chain) (n : nat) : list frame -> chain -> Prop :=
| wc_nil : wc par n [] []
| wc_user k c : wc par n k c -> wc par n (FUser :: k) c
| wc_before k c : wc par n k c -> wc par n (FBefore :: k) c
| wc_body e k c : wc par n k c -> wc par n (FBody e :: k) (e :: c)
| wc_after k c : wc par n k c -> wc par n (FAfter :: k) c
| wc_prompt t k c : wc par n k c -> wc par n (FPrompt t c :: k) c
| wc_throw rest k c k0 d : wc par n k c -> okc par n c -> path par n d rest c -> wc par n (FThrow rest k c None :: k0) d
| wc_throw_in rest k c k0 e d : wc par n k c -> okc par n c -> okc par n (e :: d) -> path par n (e :: d) rest c -> wc par n (FThrow rest k c (Some (e :: d)) :: k0) d
| wc_abort k t xs : wc par n k t -> wc par n (FAbort k t :: k) (xs ++ t).

Lemma okc_app par n xs c : okc par n (xs ++ c) -> okc par n c.
Proof. induction xs as [|x r IH]; [auto|]. intros H. inversion H; subst. auto. Qed.
Lemma okc_in par n c e : okc par n c -> In e c -> exists xs, c = xs ++ e :: par e.
Proof.
  induction 1 as [|x r E L N O IH]; intros Hi; [contradiction|]. destruct Hi as [->|Hi].
  - exists []. now rewrite E.
  - destruct (IH Hi) as (xs & ->). now exists (x :: xs).
Qed.
Lemma okc_nodup par n c : okc par n c -> NoDup c.
Proof. induction 1; constructor; auto. Qed.
Lemma okc_lt par n c e : okc par n c -> In e c -> e < n.
Proof. induction 1; intros []; subst; auto. Qed.
(** a fresh entry *)
Definition upd (par : nat -> chain) (n : nat) (c : chain) : nat -> chain := fun k => if Nat.eqb k n then c else par k.
Lemma okc_upd par n c d : okc par n c -> okc (upd par n d) (S n) c.
Proof. induction 1; constructor; auto. unfold upd. destruct (Nat.eqb_spec e n); [lia|assumption]. Qed.
Lemma okc_fresh par n c : okc par n c -> okc (upd par n c) (S n) (n :: c).
Proof.
  intros H. constructor; [unfold upd; now rewrite Nat.eqb_refl|lia| |now apply okc_upd]. intros Hi. apply (okc_lt _ _ _ _ H) in Hi. lia.
Qed.
Lemma path_upd par n d c hd t : path par n c hd t -> path (upd par n d) (S n) c hd t.
Proof. induction 1; constructor; auto. now apply okc_upd. Qed.
Lemma wc_upd par n d k c : wc par n k c -> wc (upd par n d) (S n) k c.
Proof. induction 1; try (constructor; auto; fail); constructor; auto using okc_upd, path_upd. Qed.
Lemma memq_in e c : memq e c = true <-> In e c.
Proof. unfold memq. rewrite existsb_exists. split; [intros (x & H & E); apply Nat.eqb_eq in E; now subst|exists e; now rewrite Nat.eqb_refl]. Qed.
Lemma memq_not e c : memq e c = false <-> ~ In e c.
Proof. rewrite <- memq_in. destruct (memq e c); split; congruence. Qed.
(** the two chains meet *)
Lemma split_common par n a b : okc par n a -> okc par n b ->
  exists xs ys c, a = xs ++ c /\ b = ys ++ c /\ (forall e, In e xs -> ~ In e b) /\ (forall e, In e ys -> ~ In e a).
Proof.
  intros A B. induction A as [|x r E L N O IH].
  - exists [], b, []. split; [reflexivity|]. split; [now rewrite app_nil_r|]. split; intros e; [intros []|auto].
  - destruct (in_dec Nat.eq_dec x b) as [Hi|Hi].
    + destruct (okc_in _ _ _ _ B Hi) as (ys & Eb). rewrite E in Eb. exists [], ys, (x :: r). repeat split; auto.
      intros e He [->|H].
      * pose proof (okc_nodup _ _ _ B) as D. rewrite Eb in D. apply NoDup_remove_2 in D. apply D. apply in_or_app. now left.
      * destruct (in_split _ _ H) as (r1 & r2 & ->). pose proof (okc_nodup _ _ _ B) as D. rewrite Eb in D.
        destruct (in_split _ _ He) as (y1 & y2 & ->). rewrite <- app_assoc in D. cbn [app] in D. apply NoDup_remove_2 in D. apply D.
        apply in_or_app. right. apply in_or_app. right. right. apply in_or_app. right. now left.
    + destruct IH as (xs & ys & c & -> & -> & X & Y). exists (x :: xs), ys, c. repeat split; auto.
      * intros e [<-|H]; auto.
      * intros e H [<-|H']; [apply Hi; apply in_or_app; now left|eapply Y; eassumption].
Qed.
Fixpoint outs (xs c : chain) : hdlist := match xs with [] => [] | e :: r => (false, (e :: r) ++ c) :: outs r c end.
Fixpoint ins (ys c : chain) : hdlist := match ys with [] => [] | e :: r => ins r c ++ [(true, (e :: r) ++ c)] end.
Lemma calc_out_spec tgt xs c : (forall e, In e xs -> ~ In e tgt) -> (match c with [] => True | e :: _ => In e tgt end) ->
  calc_out tgt (xs ++ c) = outs xs c.
Proof.
  induction xs as [|x r IH]; intros H C; cbn [app calc_out outs].
  - destruct c as [|e c]; [reflexivity|]. cbn [calc_out]. now rewrite (proj2 (memq_in _ _) C).
  - rewrite (proj2 (memq_not _ _)) by (apply H; now left). f_equal. apply IH; [|assumption]. intros e He. apply H. now right.
Qed.
Lemma calc_in_spec cur ys c h : (forall e, In e ys -> ~ In e cur) -> (match c with [] => True | e :: _ => In e cur end) ->
  calc_in cur (ys ++ c) h = ins ys c ++ h.
Proof.
  revert h. induction ys as [|y r IH]; intros h H C; cbn [app calc_in ins].
  - destruct c as [|e c]; [reflexivity|]. cbn [calc_in]. now rewrite (proj2 (memq_in _ _) C).
  - rewrite (proj2 (memq_not _ _)) by (apply H; now left). rewrite IH; [now rewrite <- app_assoc| |assumption]. intros e He. apply H. now right.
Qed.
Lemma calculate_spec par n tgt cur : okc par n tgt -> okc par n cur ->
  exists xs ys c, cur = xs ++ c /\ tgt = ys ++ c /\ (forall e, In e xs -> ~ In e tgt) /\ (forall e, In e ys -> ~ In e cur) /\
    calculate_handlers tgt cur = outs xs c ++ ins ys c.
Proof.
  intros T C. destruct (split_common _ _ _ _ C T) as (xs & ys & c & Ec & Et & X & Y). exists xs, ys, c. repeat split; auto.
  unfold calculate_handlers, chain_eq. destruct (list_eq_dec Nat.eq_dec tgt cur) as [E|E].
  - assert (xs = [] /\ ys = []) as [-> ->]; [|reflexivity]. split.
    + destruct xs as [|x r]; [reflexivity|]. exfalso. apply (X x); [now left|]. rewrite E, Ec. now left.
    + destruct ys as [|y r]; [reflexivity|]. exfalso. apply (Y y); [now left|]. rewrite <- E, Et. now left.
  - f_equal.
    + rewrite Ec at 1. rewrite calc_out_spec; [reflexivity|assumption|]. destruct c; [exact Logic.I|]. rewrite Et. apply in_or_app. right. now left.
    + rewrite Et at 1. rewrite calc_in_spec; [apply app_nil_r|assumption|]. destruct c; [exact Logic.I|]. rewrite Ec. apply in_or_app. right. now left.
Qed.
Lemma path_app par n a h b h' c : path par n a h b -> path par n b h' c -> path par n a (h ++ h') c.
Proof. induction 1; intros; cbn [app]; [assumption|constructor; auto|constructor; auto]. Qed.
Lemma path_outs par n xs c : path par n (xs ++ c) (outs xs c) c.
Proof. induction xs; cbn; constructor. assumption. Qed.
Lemma path_ins par n ys c : okc par n (ys ++ c) -> path par n c (ins ys c) (ys ++ c).
Proof.
  induction ys as [|y r IH]; intros O; cbn [ins app]; [constructor|]. eapply path_app; [apply IH; inversion O; assumption|]. constructor; [exact O|constructor].
Qed.
Lemma calculate_path par n tgt cur : okc par n tgt -> okc par n cur -> path par n cur (calculate_handlers tgt cur) tgt.
Proof.
  intros T C. destruct (calculate_spec _ _ _ _ T C) as (xs & ys & c & -> & -> & _ & _ & ->). eapply path_app; [apply path_outs|now apply path_ins].
Qed.
(** the invariant *)
Definition Inv (s : st) : Prop := exists par,
  okc par (fresh s) (handlers s) /\ wc par (fresh s) (cont s) (handlers s) /\
  Forall (fun kc => wc par (fresh s) (fst kc) (snd kc) /\ okc par (fresh s) (snd kc)) (caps s) /\
  replay (trace s) [] = Some (handlers s).
Lemma replay_app es fs c c' : replay es c = Some c' -> replay (es ++ fs) c = replay fs c'.
Proof.
  revert c. induction es as [|e r IH]; intros c H; cbn [app replay] in *; [congruence|].
  destruct e; auto.
  - destruct (in_dec Nat.eq_dec e c); [discriminate|auto].
  - destruct c as [|x c0]; [discriminate|]. destruct (Nat.eq_dec x e); [auto|discriminate].
Qed.
Lemma throw_body_inv par hd k c s :
  okc par (fresh s) (handlers s) -> Forall (fun kc => wc par (fresh s) (fst kc) (snd kc) /\ okc par (fresh s) (snd kc)) (caps s) -> replay (trace s) [] = Some (handlers s) ->
  wc par (fresh s) k c -> okc par (fresh s) c -> path par (fresh s) (handlers s) hd c ->
  exists s', throw_cont_body hd k c s = Ok s' /\ Inv s'.
Proof.
  intros O F R W Oc P. inversion P as [c0 E1 E2 E3|e d r t P' E1 E2 E3|e d r t O' P' E1 E2 E3].
  - subst. eexists. split; [reflexivity|]. exists par. repeat split; assumption.
  - subst. rewrite <- E1 in *. eexists. split; [reflexivity|]. exists par. cbn [fresh handlers cont caps trace emit set_handlers set_cont].
    inversion O; subst. split; [assumption|]. split; [now constructor|]. split; [assumption|]. rewrite (replay_app _ _ _ _ R). cbn [replay]. destruct (Nat.eq_dec e e) as [_|Hn]; [reflexivity|now destruct Hn].
  - subst. eexists. split; [reflexivity|]. exists par. cbn [fresh handlers cont caps trace emit set_handlers set_cont].
    split; [assumption|]. split; [now constructor|]. split; [assumption|]. now rewrite (replay_app _ _ _ _ R).
Qed.
Lemma find_prompt_wc par n tag k c k' t : wc par n k c -> prompt_visible tag k = true -> find_prompt tag k = Some (k', t) ->
  wc par n k' t /\ exists xs, c = xs ++ t.
Proof.
  induction 1 as [|k c W IH|k c W IH|e k c W IH|k c W IH|t0 k c W IH| | |k t0 xs W IH]; cbn [prompt_visible find_prompt]; intros V F; try discriminate; auto.
  - destruct (IH V F) as (A & xs & ->). split; [assumption|]. now exists (e :: xs).
  - destruct (Nat.eqb_spec t0 tag); [|auto]. injection F as <- <-. split; [now constructor|]. now exists [].
  - destruct (IH V F) as (A & ys & ->). split; [assumption|]. exists (xs ++ ys). now rewrite app_assoc.
Qed.
Lemma abort_inv par k t xs s :
  okc par (fresh s) (handlers s) -> Forall (fun kc => wc par (fresh s) (fst kc) (snd kc) /\ okc par (fresh s) (snd kc)) (caps s) -> replay (trace s) [] = Some (handlers s) ->
  wc par (fresh s) k t -> handlers s = xs ++ t -> exists s', abort_step k t s = Ok s' /\ Inv s'.
Proof.
  intros O F R W E. unfold abort_step, chain_eq.
  destruct (handlers s) as [|e r] eqn:EH.
  - destruct xs, t; try discriminate. eexists. split; [reflexivity|]. exists par. cbn. rewrite EH. repeat split; assumption.
  - destruct (list_eq_dec Nat.eq_dec t (e :: r)) as [->|N].
    + eexists. split; [reflexivity|]. exists par. cbn. rewrite EH. repeat split; assumption.
    + destruct xs as [|x xs]; [cbn in E; congruence|]. injection E as <- E. eexists. split; [reflexivity|]. exists par. cbn [fresh handlers cont caps trace emit set_handlers set_cont].
      inversion O as [|e0 r0 Q1 Q2 Q3 Q4]; clear Q1. split; [assumption|]. split; [rewrite E; now constructor|]. split; [assumption|]. rewrite (replay_app _ _ _ _ R). cbn [replay]. destruct (Nat.eq_dec e e) as [_|Hn]; [reflexivity|now destruct Hn].
Qed.
Lemma step_inv l s : Inv s -> (match l with LAbort tag => prompt_visible tag (cont s) = true | _ => True end) ->
  step l s = Err \/ exists s', step l s = Ok s' /\ Inv s'.
Proof.
  intros (par & O & W & F & R) V. destruct l as [| | | |i|tag|tag]; cbn [step].
  - right. eexists. split; [reflexivity|]. exists par. cbn. repeat split; auto. now constructor.
  - (* return *)
    destruct (cont s) as [|f k] eqn:EK; [now left|]. right.
    inversion W as [|k1 c1 W1 E1 E2|k1 c1 W1 E1 E2|e k1 c1 W1 E1 E2|k1 c1 W1 E1 E2|t k1 c1 W1 E1 E2|rest k1 c1 k0 d W1 O1 P1 E1 E2|rest k1 c1 k0 e d W1 O1 O2 P1 E1 E2|k1 t xs W1 E1 E2]; subst.
    + eexists. split; [reflexivity|]. exists par. cbn. repeat split; auto.
    + eexists. split; [reflexivity|]. exists (upd par (fresh s) (handlers s)). cbn [fresh handlers cont caps trace]. split; [now apply okc_fresh|].
      split; [constructor; now apply wc_upd|]. split.
      * eapply Forall_impl; [|exact F]. intros [a b] [A B]. cbn [fst snd] in *. split; [now apply wc_upd|now apply okc_upd].
      * rewrite (replay_app _ _ _ _ R). cbn [replay]. destruct (in_dec Nat.eq_dec (fresh s) (handlers s)) as [Hi|]; [|reflexivity].
        apply (okc_lt _ _ _ _ O) in Hi. lia.
    + rewrite <- E2 in *. eexists. split; [reflexivity|]. exists par. cbn [fresh handlers cont caps trace emit set_handlers set_cont].
      inversion O; subst. split; [assumption|]. split; [now constructor|]. split; [assumption|]. rewrite (replay_app _ _ _ _ R). cbn [replay]. destruct (Nat.eq_dec e e) as [_|Hn]; [reflexivity|now destruct Hn].
    + eexists. split; [reflexivity|]. exists par. cbn. repeat split; auto.
    + eexists. split; [reflexivity|]. exists par. cbn. repeat split; auto.
    + eapply throw_body_inv; cbn [fresh handlers cont caps trace set_cont]; eassumption.
    + cbv zeta. eapply throw_body_inv; cbn [fresh handlers cont caps trace set_cont emit set_handlers]; try eassumption.
      rewrite (replay_app _ _ _ _ R). cbn [replay]. destruct (in_dec Nat.eq_dec e (handlers s)) as [Hi|]; [|reflexivity].
      inversion O2; subst. contradiction.
    + eapply abort_inv; try eassumption. now rewrite <- E2.
  - right. eexists. split; [reflexivity|]. exists par. cbn. repeat split; auto. now constructor.
  - right. eexists. split; [reflexivity|]. exists par. cbn. repeat split; auto. apply Forall_app. split; [assumption|]. repeat constructor; assumption.
  - destruct (nth_error (caps s) i) as [[k c]|] eqn:EN; [|now left]. right. apply nth_error_In in EN.
    rewrite Forall_forall in F. destruct (F _ EN) as [A B]. cbn [fst snd] in A, B. rewrite <- Forall_forall in F.
    eapply throw_body_inv; try eassumption. now apply calculate_path.
  - right. eexists. split; [reflexivity|]. exists par. cbn. repeat split; auto. now constructor.
  - destruct (find_prompt tag (cont s)) as [[k t]|] eqn:EF; [|now left]. right.
    destruct (find_prompt_wc _ _ _ _ _ _ _ W V EF) as (A & xs & E). eapply abort_inv; eassumption.
Qed.
Lemma init_inv : Inv init.
Proof. exists (fun _ => []). repeat split; constructor. Qed.
Lemma run_inv ls : forall s, Inv s -> orderly ls s = true -> run ls s = Err \/ exists s', run ls s = Ok s' /\ Inv s'.
Proof.
  induction ls as [|l r IH]; intros s I O; cbn [run orderly] in *; [eauto|]. apply andb_true_iff in O as [O1 O2].
  destruct (step_inv l s I) as [E|(s1 & E & I1)]; [destruct l; auto| |]; rewrite E; cbn [bind]; [now left|]. rewrite E in O2. apply IH; assumption.
Qed.
