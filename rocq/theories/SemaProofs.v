(** Invariants of semaphores and latches. *)
From Coq Require Import List Bool ZArith Lia.
From Verif Require Import SemaSpec.
From Verif Require SemModel LatchModel.
Import ListNotations.
Local Open Scope Z_scope.

Lemma released_app a b : released (a ++ b) = released a + released b.
Proof. unfold released. induction a as [|e a IH]; cbn [fold_right app]; [reflexivity|]. destruct e; rewrite ?IH; lia. Qed.
Lemma acquired_app a b : acquired (a ++ b) = acquired a + acquired b.
Proof. unfold acquired. induction a as [|e a IH]; cbn [fold_right app]; [reflexivity|]. destruct e; rewrite ?IH; lia. Qed.
Lemma decs_app a b : decs (a ++ b) = decs a + decs b.
Proof. unfold decs. induction a as [|e a IH]; cbn [fold_right app]; [reflexivity|]. destruct e; rewrite ?IH; lia. Qed.

Lemma sem_count n s h : SemModel.exec n s h -> SemModel.count s = n + released h - acquired h.
Proof.
  induction 1 as [|s h e s' E IH ST]; cbn; [lia|].
  rewrite released_app, acquired_app. inversion ST; subst; cbn; lia.
Qed.
Lemma sem_bound n s h : SemModel.exec n s h -> acquired h > 0 -> 0 <= SemModel.count s.
Proof.
  induction 1 as [|s h e s' E IH ST]; [cbn; lia|].
  rewrite acquired_app. inversion ST; subst; cbn; intros; try lia; try (apply IH; lia).
Qed.
(** whenever somebody sleeps, enough threads are on their way to take all the tokens *)
Lemma sem_wake n s h : SemModel.exec n s h -> SemModel.asleep s <> [] ->
  SemModel.count s <= Z.of_nat (length (SemModel.want s)).
Proof.
  induction 1 as [|s h e s' E IH ST]; [cbn; congruence|].
  inversion ST; subst; cbn [SemModel.count SemModel.want SemModel.asleep SemModel.mk]; intro N;
    rewrite ?app_length; cbn [length].
  - specialize (IH N). lia.
  - specialize (IH N). rewrite H, app_length in IH. cbn [length] in IH. lia.
  - lia.
  - assert (SemModel.asleep s <> []) by (rewrite H; now destruct a). specialize (IH H0). lia.
  - assert (SemModel.asleep s <> []) by (rewrite H; now destruct a). specialize (IH H0). lia.
  - assert (SemModel.asleep s <> []) by (rewrite H; now destruct a). specialize (IH H1). lia.
  - congruence.
  - congruence.
  - lia.
Qed.

Lemma latch_inv n s h : 0 < n -> LatchModel.exec n s h ->
  (opened n h -> LatchModel.asleep s = [] /\ LatchModel.count s <= 0) /\
  (~ opened n h -> LatchModel.count s = n - decs h /\ 0 < LatchModel.count s).
Proof.
  intros HN. induction 1 as [|s h e s' E [IO IC] ST].
  - split.
    + intros [(r & [])|(h1 & h2 & Q & L)]. symmetry in Q. apply app_eq_nil in Q. destruct Q; subst. cbn in L. lia.
    + intros _. cbn. lia.
  - assert (D : opened n h \/ ~ opened n h).
    { destruct (Z_le_gt_dec (LatchModel.count s) 0).
      - (* decided by the state *)
        clear - h. induction h as [|e h IH] using rev_ind.
        + destruct (Z_le_gt_dec n 0) as [L|L].
          * left. right. exists [], []. auto.
          * right. intros [(r & [])|(h1 & h2 & Q & L')]. symmetry in Q. apply app_eq_nil in Q. destruct Q; subst. cbn in L'. lia.
        + destruct IH as [[(r & C)|(h1 & h2 & Q & L)]|IH].
          * left. left. exists r. apply in_or_app; auto.
          * left. right. exists h1, (h2 ++ [e]). subst. now rewrite app_assoc.
          * destruct (Z_le_gt_dec n (decs (h ++ [e]))) as [L|L].
            -- left. right. exists (h ++ [e]), []. now rewrite app_nil_r.
            -- assert (CC : (exists r, e = LatchModel.Clear r) \/ ~ (exists r, e = LatchModel.Clear r))
                 by (destruct e; [right|right|right|right|left; eauto]; intros (r0 & X); discriminate).
               destruct CC as [(r & ->)|CC].
               ++ left. left. exists r. apply in_or_app. right. now left.
               ++ right. intros [(r & C)|(h1 & h2 & Q & L')].
                  ** apply in_app_or in C. destruct C as [C|[C|[]]]; [apply IH; left; exists r; auto|apply CC; eauto].
                  ** destruct h2 as [|x h2] using rev_ind.
                     --- rewrite app_nil_r in Q. subst. lia.
                     --- rewrite app_assoc in Q. apply app_inj_tail in Q. destruct Q as (Q & _).
                         apply IH. right. exists h1, h2. auto.
      - right. intro O. apply IO in O. lia. }
    assert (MONO : opened n h -> opened n (h ++ e)).
    { intros [(r & C)|(h1 & h2 & Q & L)]; [left; exists r; apply in_or_app; auto|].
      right. exists h1, (h2 ++ e). subst. now rewrite app_assoc. }
    assert (NEW : opened n (h ++ e) -> ~ opened n h -> (exists r, In (LatchModel.Clear r) e) \/ (e <> [] /\ n <= decs (h ++ e))).
    { intros [(r & C)|(h1 & h2 & Q & L)] N.
      - apply in_app_or in C. destruct C as [C|C]; [exfalso; apply N; left; exists r; auto|left; eauto].
      - assert (EL : e = [] \/ exists x, e = [x]) by (inversion ST; subst; eauto).
        destruct EL as [->|(x & ->)].
        + exfalso. apply N. right. exists h1, h2. rewrite app_nil_r in Q. auto.
        + destruct h2 as [|y h2] using rev_ind.
          * rewrite app_nil_r in Q. right. split; [discriminate|congruence].
          * rewrite app_assoc in Q. apply app_inj_tail in Q. destruct Q as (Q & _).
            exfalso. apply N. right. exists h1, h2. auto. }
    assert (STAY : decs (h ++ e) = decs h -> (forall r, ~ In (LatchModel.Clear r) e) -> ~ opened n h -> ~ opened n (h ++ e)).
    { intros DE NC N O. destruct (NEW O N) as [(r & C)|(_ & L)]; [eapply NC; eauto|].
      apply N. right. exists h, []. rewrite app_nil_r. split; [auto|lia]. }
    assert (GROW : n <= decs (h ++ e) -> opened n (h ++ e)).
    { intro L. right. exists (h ++ e), []. now rewrite app_nil_r. }
    destruct D as [O|N].
    + destruct (IO O) as (A & C). split; [intros _|intro X; exfalso; apply X; auto].
      inversion ST; subst; cbn [LatchModel.count LatchModel.asleep LatchModel.mk]; auto;
        try lia; try (rewrite A in *; match goal with Q : [] = _ ++ _ :: _ |- _ => now apply app_cons_not_nil in Q end); split; auto; lia.
    + destruct (IC N) as (C & P).
      inversion ST; subst; cbn [LatchModel.count LatchModel.asleep LatchModel.mk]; try lia;
        try (split; [intro X; exfalso; revert X; apply STAY; [rewrite decs_app; cbn; lia|cbn; intros r Q; first [destruct Q as [Q|[]]; discriminate|destruct Q]|assumption]
                    |intros _; rewrite decs_app; cbn; lia]; fail).
      * assert (O : opened n (h ++ [LatchModel.Dec n0 (LatchModel.count s - n0)])) by (apply GROW; rewrite decs_app; cbn; lia).
        split; [intros _; split; [auto|lia]|intro X; exfalso; auto].
      * split; [intro X|intros _; rewrite decs_app; cbn; lia].
        exfalso. destruct (NEW X N) as [(r & [Q|[]])|(_ & L)]; [discriminate|]. rewrite decs_app in L. cbn in L. lia.
      * assert (O : opened n (h ++ [LatchModel.Clear (LatchModel.count s)])) by (left; exists (LatchModel.count s); apply in_or_app; right; now left).
        split; [intros _; split; [auto|lia]|intro X; exfalso; auto].
Qed.
