(** Invariants of barriers. *)
From Coq Require Import List Bool ZArith Lia.
From Coq Require FinFun.
From Verif Require Import BarrierModel BarrierSpec.
Import ListNotations.
Local Open Scope Z_scope.

Lemma places_app g a b : places g (a ++ b) = places g a ++ places g b.
Proof. unfold places. now rewrite flat_map_app. Qed.
Lemma actions_app g a b : actions g (a ++ b) = actions g a ++ actions g b.
Proof. unfold actions. now rewrite flat_map_app. Qed.
Lemma countdown_S thr n : countdown thr (S n) = countdown thr n ++ [thr - 1 - Z.of_nat n].
Proof. unfold countdown. rewrite seq_S, map_app. reflexivity. Qed.
Lemma countdown_nodup thr n : NoDup (countdown thr n).
Proof.
  unfold countdown. apply FinFun.Injective_map_NoDup; [|apply seq_NoDup]. intros x y Q. lia.
Qed.
Lemma countdown_in thr n i : 0 <= i < thr -> thr <= Z.of_nat n -> In i (countdown thr n).
Proof.
  intros A B. unfold countdown. apply in_map_iff. exists (Z.to_nat (thr - 1 - i)). split; [lia|].
  apply in_seq. lia.
Qed.

Section P.
Variable thr : Z.
Variable action : bool.
Hypothesis THR : 1 <= thr.

Definition full (g : Z) (h : list ev) : Prop := exists n, thr <= Z.of_nat n /\ places g h = countdown thr n.
Definition acts_ok (g : Z) (h : list ev) : Prop :=
  if action then exists t, actions g h = [t] else actions g h = [].
Definition waiting (s : st) (c : call) (below : bool) : Prop :=
  match loc c with
  | None => below = true
  | Some (g, p) => p <> 0 /\ 0 <= g /\ (if below then g <= gen s else g = gen s)
  end.
Record Inv (s : st) (h : list ev) : Prop := {
  i_broken : broken s = false;
  i_late : late s = [];
  i_gen : 0 <= gen s;
  i_count : 0 <= count s;
  i_now : places (gen s) h = countdown thr (Z.to_nat (count s));
  i_future : forall g, gen s < g -> places g h = [] /\ actions g h = [];
  i_past : forall g, 0 <= g < gen s -> full g h /\ acts_ok g h;
  i_run : (count s < thr /\ acting s = [] /\ acted s = [] /\ actions (gen s) h = []) \/
          (thr <= count s /\ action = true /\
            ((exists t, acting s = [(t, gen s)] /\ acted s = [] /\ actions (gen s) h = []) \/
             (exists t, acting s = [] /\ acted s = [(t, gen s, false)] /\ actions (gen s) h = [t])));
  i_want : Forall (fun c => waiting s c true) (want s);
  i_asleep : Forall (fun c => waiting s c false) (asleep s);
  i_ret : forall h1 t g p h2, h = h1 ++ ERet t g p :: h2 -> full g h1 /\ acts_ok g h1 /\ 0 <= g < gen s
}.

Lemma inv_init : Inv init [].
Proof.
  constructor; cbn; auto; try lia; try (intros; lia).
  - left. repeat split; auto; lia.
  - intros h1 t g p h2 Q. now apply app_cons_not_nil in Q.
Qed.

Lemma waiting_up s c : waiting s c false -> waiting s c true.
Proof. unfold waiting. destruct (loc c) as [[g p]|]; [intuition; subst; lia|auto]. Qed.
Lemma waiting_more s s' c : waiting s c true -> gen s <= gen s' -> waiting s' c true.
Proof. unfold waiting. destruct (loc c) as [[g p]|]; [intuition; lia|auto]. Qed.

Lemma snoc_ret (h : list ev) (P : list ev -> Z -> Prop) e :
  (forall h1 t g p h2, h = h1 ++ ERet t g p :: h2 -> P h1 g) ->
  (forall t g p, e = ERet t g p -> P h g) ->
  forall h1 t g p h2, h ++ [e] = h1 ++ ERet t g p :: h2 -> P h1 g.
Proof.
  intros A B h1 t g p h2 Q. destruct h2 as [|x h2] using rev_ind.
  - apply app_inj_tail in Q. destruct Q as (Q & Q'). subst. eauto.
  - rewrite app_comm_cons, app_assoc in Q. apply app_inj_tail in Q. destruct Q as (Q & _). eauto.
Qed.

Lemma full_arr g h t g' p : g <> g' -> full g h -> full g (h ++ [EArrive t g' p]).
Proof.
  intros N (n & L & Q). exists n. split; auto. rewrite places_app, Q. cbn.
  destruct (Z.eqb_spec g g'); [congruence|]. now rewrite app_nil_r.
Qed.
Lemma full_other g h e : (forall t g' p, e <> EArrive t g' p) -> full g h -> full g (h ++ [e]).
Proof.
  intros N (n & L & Q). exists n. split; auto. rewrite places_app, Q.
  destruct e; cbn; rewrite ?app_nil_r; auto. exfalso. eapply N; eauto.
Qed.
Lemma acts_other g h e : (forall t g' ok, e = EAction t g' ok -> g <> g') -> acts_ok g h -> acts_ok g (h ++ [e]).
Proof.
  unfold acts_ok. intros N Q. rewrite actions_app.
  assert (E : actions g [e] = []).
  { destruct e; cbn; auto. destruct (Z.eqb_spec g g0); auto. exfalso. eapply N; eauto. }
  rewrite E, app_nil_r. exact Q.
Qed.

Lemma split_want s h a c b : Inv s h -> want s = a ++ c :: b -> waiting s c true /\ Forall (fun c => waiting s c true) (a ++ b).
Proof.
  intros I Q. pose proof (i_want _ _ I) as W. rewrite Q in W. apply Forall_app in W. destruct W as (W1 & W2).
  inversion W2; subst. split; auto. apply Forall_app; auto.
Qed.
Lemma split_asleep s h a c b : Inv s h -> asleep s = a ++ c :: b -> waiting s c false /\ Forall (fun c => waiting s c false) (a ++ b).
Proof.
  intros I Q. pose proof (i_asleep _ _ I) as W. rewrite Q in W. apply Forall_app in W. destruct W as (W1 & W2).
  inversion W2; subst. split; auto. apply Forall_app; auto.
Qed.

(** the generation ends *)
Lemma inv_release s h t :
  broken s = false -> late s = [] -> 0 <= gen s -> acting s = [] -> acted s = [] ->
  full (gen s) h -> acts_ok (gen s) h ->
  (forall g, gen s < g -> places g h = [] /\ actions g h = []) ->
  (forall g, 0 <= g < gen s -> full g h /\ acts_ok g h) ->
  Forall (fun c => waiting s c true) (want s) -> Forall (fun c => waiting s c true) (asleep s) ->
  (forall h1 t g p h2, h = h1 ++ ERet t g p :: h2 -> full g h1 /\ acts_ok g h1 /\ 0 <= g < gen s) ->
  Inv (release s) (h ++ [ERet t (gen s) 0]).
Proof.
  intros B L G A1 A2 F AO FU PA W AS R. constructor; cbn; auto; try lia.
  - rewrite places_app. destruct (FU (gen s + 1)) as (Q & _); [lia|]. rewrite Q. reflexivity.
  - intros g Hg. rewrite places_app, actions_app. cbn. rewrite !app_nil_r. apply FU. lia.
  - intros g Hg. destruct (Z.eq_dec g (gen s)) as [->|N].
    + split; [apply full_other; auto; discriminate|apply acts_other; auto; discriminate].
    + destruct (PA g); [lia|]. split; [apply full_other; auto; discriminate|apply acts_other; auto; discriminate].
  - left. repeat split; auto; try lia. rewrite actions_app. destruct (FU (gen s + 1)) as (_ & Q); [lia|].
    rewrite Q. reflexivity.
  - apply Forall_app. split; [eapply Forall_impl; [|exact AS]|eapply Forall_impl; [|exact W]];
      intros c Q; apply (waiting_more s); auto; cbn; lia.
  - apply (snoc_ret h (fun h1 g => full g h1 /\ acts_ok g h1 /\ 0 <= g < gen s + 1)).
    + intros. destruct (R _ _ _ _ _ H) as (? & ? & ?). repeat split; auto; lia.
    + intros t' g p Q. inversion Q; subst. repeat split; auto; lia.
Qed.

Lemma Forall_waiting s s' b l : gen s = gen s' -> Forall (fun c => waiting s c b) l -> Forall (fun c => waiting s' c b) l.
Proof. intros E. apply Forall_impl. intros c. unfold waiting. rewrite E. auto. Qed.

(** a silent event: nothing in the state but want and asleep changes *)
Lemma inv_quiet s h s' : Inv s h -> count s' = count s -> gen s' = gen s -> broken s' = broken s -> late s' = late s ->
  acting s' = acting s -> acted s' = acted s ->
  Forall (fun c => waiting s c true) (want s') -> Forall (fun c => waiting s c false) (asleep s') -> Inv s' h.
Proof.
  intros [] C G B L A1 A2 W AS.
  constructor; rewrite ?C, ?G, ?B, ?L, ?A1, ?A2; auto; eapply Forall_waiting; try eassumption; auto.
Qed.

Lemma inv_step s h e s' : Inv s h -> step thr action s e s' -> calm e -> Inv s' (h ++ e).
Proof.
  intros I ST CA. pose proof I as [IB IL IG IC IN IF IP IR IW IA IRT].
  inversion ST; subst; clear ST; rewrite ?app_nil_r.
  - (* call *) eapply inv_quiet; eauto; cbn. constructor; auto. reflexivity.
  - (* broken *) exfalso. destruct c as [w tm [[g0 p0]|]]; cbn in H0; inversion H0; subst; cbn in H1; congruence.
  - (* over *)
    destruct (split_want _ _ _ _ _ I H) as (W1 & W2).
    destruct c as [w tm [[g0 p0]|]]; cbn in H0; inversion H0; subst; cbn in H2; [|lia].
    cbn. unfold waiting in W1; cbn in W1. destruct W1 as (P0 & G0 & G1).
    assert (I' : Inv (set_want (a ++ b) s1) h) by (eapply inv_quiet; eauto).
    destruct I' as [JB JL JG JC JN JF JP JR JW JA JRT].
    constructor; auto.
    + rewrite places_app. cbn. now rewrite app_nil_r.
    + intros g1 Q. rewrite places_app, actions_app. cbn. rewrite !app_nil_r. auto.
    + intros g1 Q. destruct (JP g1 Q). split; [apply full_other; auto; discriminate|apply acts_other; auto; discriminate].
    + rewrite actions_app. cbn. rewrite app_nil_r. auto.
    + apply (snoc_ret h (fun h1 g => full g h1 /\ acts_ok g h1 /\ 0 <= g < gen s1)); eauto.
      intros t' g1 p1 Q. inversion Q; subst. destruct (IP g1); [lia|]. repeat split; auto; lia.
  - (* last, with an action *)
    destruct (split_want _ _ _ _ _ I H) as (W1 & W2).
    destruct c as [w tm [[g0 p0]|]]; cbn in H0; inversion H0; subst; cbn in H2;
      [unfold waiting in W1; cbn in W1; intuition congruence|].
    cbn. assert (CN : count s + 1 = thr) by lia. destruct IR as [(R1 & R2 & R3 & R4)|(R1 & _)]; [|lia].
    rewrite R2.
    constructor; cbn; auto; try lia.
    + rewrite places_app, IN. cbn. rewrite Z.eqb_refl. replace (Z.to_nat (count s + 1)) with (S (Z.to_nat (count s))) by lia.
      rewrite countdown_S. f_equal. apply (f_equal (fun x => [x])). lia.
    + intros g1 Q. rewrite places_app, actions_app. destruct (IF g1 Q) as (-> & ->). cbn.
      destruct (Z.eqb_spec g1 (gen s)); [lia|auto].
    + intros g1 Q. destruct (IP g1 Q). split; [apply full_arr; auto; lia|apply acts_other; auto; discriminate].
    + right. repeat split; auto; try lia. left. exists w. repeat split; auto.
      rewrite actions_app, R4. reflexivity.
    + apply (snoc_ret h (fun h1 g => full g h1 /\ acts_ok g h1 /\ 0 <= g < gen s)); eauto. intros; discriminate.
  - (* last, without *)
    destruct (split_want _ _ _ _ _ I H) as (W1 & W2).
    destruct c as [w tm [[g0 p0]|]]; cbn in H0; inversion H0; subst; cbn in H2;
      [unfold waiting in W1; cbn in W1; intuition congruence|].
    assert (CN : count s + 1 = thr) by lia. destruct IR as [(R1 & R2 & R3 & R4)|(R1 & _)]; [|lia].
    unfold arrival. cbn [loc who]. rewrite app_assoc. replace (thr - (count s + 1)) with 0 by lia.
    match goal with |- Inv (release ?s2) _ => apply (inv_release s2) end; cbn; auto; try lia.
    + exists (S (Z.to_nat (count s))). split; [lia|]. rewrite places_app, IN, countdown_S. cbn [places flat_map]. rewrite Z.eqb_refl.
      f_equal. apply (f_equal (fun x => [x])). lia.
    + unfold acts_ok. destruct action; [discriminate|]. rewrite actions_app, R4. reflexivity.
    + intros g1 Q. rewrite places_app, actions_app. destruct (IF g1 Q) as (-> & ->). cbn.
      destruct (Z.eqb_spec g1 (gen s)); [lia|auto].
    + intros g1 Q. destruct (IP g1 Q). split; [apply full_arr; auto; lia|apply acts_other; auto; discriminate].
    + eapply Forall_impl; [|exact IA]. intros c Q. now apply waiting_up.
    + apply (snoc_ret h (fun h1 g => full g h1 /\ acts_ok g h1 /\ 0 <= g < gen s)); eauto. intros; discriminate.
  - (* wait *)
    destruct (split_want _ _ _ _ _ I H) as (W1 & W2).
    destruct c as [w tm [[g0 p0]|]]; cbn in H0; inversion H0; subst; cbn in H2; unfold arrival; cbn [loc who timed].
    + rewrite app_nil_r. eapply inv_quiet; eauto. constructor; [|auto].
      unfold waiting in *; cbn in *. intuition lia.
    + constructor; cbn; auto; try lia.
      * rewrite places_app, IN. cbn. rewrite Z.eqb_refl. replace (Z.to_nat (count s + 1)) with (S (Z.to_nat (count s))) by lia.
        rewrite countdown_S. f_equal. apply (f_equal (fun x => [x])). lia.
      * intros g1 Q. rewrite places_app, actions_app. destruct (IF g1 Q) as (-> & ->). cbn.
        destruct (Z.eqb_spec g1 (gen s)); [lia|auto].
      * intros g1 Q. destruct (IP g1 Q). split; [apply full_arr; auto; lia|apply acts_other; auto; discriminate].
      * rewrite actions_app. cbn. rewrite app_nil_r.
        destruct IR as [(R1 & R2 & R3 & R4)|(R1 & R2)]; [left; repeat split; auto; lia|right; split; [lia|auto]].
      * constructor; [|auto]. unfold waiting; cbn. auto.
      * apply (snoc_ret h (fun h1 g => full g h1 /\ acts_ok g h1 /\ 0 <= g < gen s)); eauto. intros; discriminate.
  - (* the action ends *)
    inversion CA; subst. destruct ok; [|contradiction].
    destruct IR as [(R1 & R2 & R3 & R4)|(R1 & R2 & [(t0 & R3 & R4 & R5)|(t0 & R3 & R4 & R5)])];
      [rewrite R2 in H; now apply app_cons_not_nil in H| |rewrite R3 in H; now apply app_cons_not_nil in H].
    assert (E : a = [] /\ b = [] /\ t = t0 /\ g = gen s).
    { rewrite R3 in H. destruct a as [|x a]; inversion H; subst; [auto|]. match goal with Q : [] = _ ++ _ :: _ |- _ => now apply app_cons_not_nil in Q end. }
    destruct E as (-> & -> & -> & ->). cbn. rewrite R4.
    constructor; cbn; auto; try lia.
    + rewrite IB. reflexivity.
    + rewrite places_app. cbn. now rewrite app_nil_r.
    + intros g1 Q. rewrite places_app, actions_app. destruct (IF g1 Q) as (-> & ->). cbn.
      destruct (Z.eqb_spec g1 (gen s)); [lia|auto].
    + intros g1 Q. destruct (IP g1 Q). split; [apply full_other; auto; discriminate|].
      apply acts_other; auto. intros t g' ok Q'. inversion Q'; subst. lia.
    + right. repeat split; auto. right. exists t0. repeat split; auto. rewrite actions_app, R5. cbn. now rewrite Z.eqb_refl.
    + apply (snoc_ret h (fun h1 g => full g h1 /\ acts_ok g h1 /\ 0 <= g < gen s)); eauto. intros; discriminate.
  - (* after the action *)
    destruct IR as [(R1 & R2 & R3 & R4)|(R1 & R2 & [(t0 & R3 & R4 & R5)|(t0 & R3 & R4 & R5)])];
      [rewrite R3 in H; now apply app_cons_not_nil in H|rewrite R4 in H; now apply app_cons_not_nil in H|].
    assert (E : a = [] /\ b = [] /\ t = t0 /\ g = gen s /\ raised = false).
    { rewrite R4 in H. destruct a as [|x a]; inversion H; subst; [auto|]. match goal with Q : [] = _ ++ _ :: _ |- _ => now apply app_cons_not_nil in Q end. }
    destruct E as (-> & -> & -> & -> & ->).
    apply (inv_release (set_acted [] s)); cbn; auto.
    + exists (Z.to_nat (count s)). split; [lia|auto].
    + unfold acts_ok. rewrite R2. eauto.
    + eapply Forall_impl; [|exact IA]. intros c Q. now apply waiting_up.
  - (* spurious *)
    destruct (split_asleep _ _ _ _ _ I H) as (W1 & W2).
    eapply inv_quiet; eauto. cbn. constructor; auto. now apply waiting_up.
  - inversion CA; contradiction.
  - rewrite IL in H. now apply app_cons_not_nil in H.
  - inversion CA; contradiction.
Qed.

Lemma exec_inv s h : exec thr action s h -> calm h -> Inv s h.
Proof.
  induction 1 as [|s h e s' E IH ST]; intro C; [apply inv_init|].
  unfold calm in C. apply Forall_app in C. destruct C as (C1 & C2). eapply inv_step; eauto.
Qed.
End P.

(** * In general: nobody sleeps through the end of its generation or on a broken barrier *)
Definition NL (s : st) : Prop :=
  asleep s <> [] -> Forall (fun c => exists g p, loc c = Some (g, p) /\ gen s <= g) (asleep s)
     /\ (broken s = true -> acted s <> [] \/ late s <> []).
Lemma nl_step thr action s e s' : NL s -> step thr action s e s' -> NL s'.
Proof.
  intros N ST. unfold NL in *. inversion ST; subst; clear ST;
    try (cbn; intros; congruence).
  - exact N.
  - destruct c as [w tm [[g0 p0]|]]; cbn in H0; inversion H0; subst; exact N.
  - destruct c as [w tm [[g0 p0]|]]; cbn in H0; inversion H0; subst; exact N.
  - destruct c as [w tm [[g0 p0]|]]; cbn in H0; inversion H0; subst; exact N.
  - intros _. split.
    + assert (Q : Forall (fun c => exists g p, loc c = Some (g, p) /\ gen s <= g) (asleep s)).
      { destruct (asleep s) eqn:E; [constructor|]. apply N. discriminate. }
      destruct c as [w tm [[g0 p0]|]]; cbn in H0; inversion H0; subst; cbn in *;
        (constructor; [cbn; do 2 eexists; split; [reflexivity|lia]|exact Q]).
    + destruct c as [w tm [[g0 p0]|]]; cbn in H0; inversion H0; subst; cbn in *; congruence.
  - cbn. intro Q. destruct (N Q) as (N1 & N2). split; [exact N1|]. intros _. left. discriminate.
  - cbn. intro Q. assert (Q' : asleep s <> []) by (rewrite H; now destruct a). destruct (N Q') as (N1 & N2).
    split; [|exact N2]. rewrite H in N1. apply Forall_app in N1. destruct N1 as (N1 & N3). inversion N3; subst.
    apply Forall_app; auto.
  - cbn. intro Q. assert (Q' : asleep s <> []) by (rewrite H; now destruct a). destruct (N Q') as (N1 & N2).
    split; [|intros _; right; discriminate]. rewrite H in N1. apply Forall_app in N1. destruct N1 as (N1 & N3). inversion N3; subst.
    apply Forall_app; auto.
Qed.
Lemma exec_nl thr action s h : exec thr action s h -> NL s.
Proof. induction 1; [intro Q; now elim Q|]. eapply nl_step; eauto. Qed.
