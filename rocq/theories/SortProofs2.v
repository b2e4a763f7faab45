(** Stable merging and merge sort on plain lists. *)
From Coq Require Import List Bool ZArith Permutation Lia.
From Verif Require Import Outcome ListModel SortModel SortSpec.
Import ListNotations.
Ltac Zify.zify_post_hook ::= idtac.

Section Pure.
Context {A : Type} (lt : A -> A -> bool).

Fixpoint pmerge (xs : list A) : list A -> list A :=
  match xs with
  | [] => fun ys => ys
  | x :: xr => fix aux (ys : list A) : list A :=
      match ys with
      | [] => x :: xr
      | y :: yr => if lt y x then y :: aux yr else x :: pmerge xr (y :: yr)
      end
  end.
Lemma pmerge_nil_l : forall ys, pmerge [] ys = ys.
Proof. reflexivity. Qed.
Lemma pmerge_nil_r : forall xs, pmerge xs [] = xs.
Proof. destruct xs; reflexivity. Qed.
Lemma pmerge_cons : forall x xr y yr, pmerge (x :: xr) (y :: yr) =
  if lt y x then y :: pmerge (x :: xr) yr else x :: pmerge xr (y :: yr).
Proof. reflexivity. Qed.

(** induction over both lists *)
Lemma merge_ind : forall P : list A -> list A -> Prop,
  (forall ys, P [] ys) -> (forall x xr, P (x :: xr) []) ->
  (forall x xr y yr, P (x :: xr) yr -> P xr (y :: yr) -> P (x :: xr) (y :: yr)) ->
  forall xs ys, P xs ys.
Proof. intros P H1 H2 H3. induction xs; auto. induction ys; auto. Qed.

Lemma pmerge_perm : forall xs ys, Permutation (xs ++ ys) (pmerge xs ys).
Proof.
  apply merge_ind; intros.
  - reflexivity.
  - rewrite app_nil_r. reflexivity.
  - rewrite pmerge_cons. destruct (lt y x).
    + rewrite <- H. symmetry. apply Permutation_middle.
    + cbn [app]. apply perm_skip. exact H0.
Qed.

Fixpoint srt (l : list A) : Prop :=
  match l with [] => True | x :: r => (forall y, In y r -> lt y x = false) /\ srt r end.
Lemma srt_ordered : forall l, srt l -> ordered lt l.
Proof.
  induction l as [|a l IH]; intros H i j x y Hij Hi Hj.
  - destruct i; discriminate.
  - destruct H as [H1 H2]. destruct j; [lia|]. cbn in Hj. destruct i; cbn in Hi.
    + injection Hi as <-. apply H1. eapply nth_error_In; eauto.
    + eapply (IH H2 i j); eauto. lia.
Qed.
Lemma ordered_srt : forall l, ordered lt l -> srt l.
Proof.
  induction l as [|a l IH]; intros H; cbn; auto. split.
  - intros y Hy. apply In_nth_error in Hy. destruct Hy as (n & Hn). apply (H 0%nat (S n) a y); auto. lia.
  - apply IH. intros i j x y Hij Hi Hj. apply (H (S i) (S j)); auto. lia.
Qed.

Hypothesis W : strict_weak_order lt.
Lemma asym : forall x y, lt x y = true -> lt y x = false.
Proof.
  intros x y H. destruct (lt y x) eqn:E; auto.
  pose proof (swo_trans _ W _ _ _ H E). rewrite (swo_irrefl _ W) in H0. discriminate.
Qed.
Lemma lt_le : forall x y z, lt x y = true -> lt z y = false -> lt x z = true.
Proof.
  intros x y z H1 H2. destruct (lt x z) eqn:E; auto. rewrite (swo_negtrans _ W x z y E H2) in H1. discriminate.
Qed.
Lemma le_lt : forall x y z, lt y x = false -> lt y z = true -> lt x z = true.
Proof.
  intros x y z H1 H2. destruct (lt x z) eqn:E; auto. rewrite (swo_negtrans _ W y x z H1 E) in H2. discriminate.
Qed.

Lemma pmerge_srt : forall xs ys, srt xs -> srt ys -> srt (pmerge xs ys).
Proof.
  apply (merge_ind (fun xs ys => srt xs -> srt ys -> srt (pmerge xs ys))); intros; auto.
  rewrite pmerge_cons. destruct H1 as [A1 A2], H2 as [B1 B2]. destruct (lt y x) eqn:E.
  - split; [|apply H; cbn; auto].
    intros z Hz. eapply Permutation_in in Hz; [|symmetry; apply pmerge_perm].
    apply in_app_or in Hz. destruct Hz as [[->|Hz]|Hz]; auto.
    + apply asym; auto.
    + apply asym. apply (lt_le y x z); auto.
  - split; [|apply H0; cbn; auto].
    intros z Hz. eapply Permutation_in in Hz; [|symmetry; apply pmerge_perm].
    apply in_app_or in Hz. destruct Hz as [Hz|[->|Hz]]; auto.
    apply (swo_negtrans _ W z y x); auto.
Qed.

Lemma equiv_false_lt : forall z y w, equiv lt z y = true -> lt y w = true -> equiv lt z w = false.
Proof.
  intros z y w H L. unfold equiv in *. apply andb_true_iff in H. destruct H as [H1 H2].
  apply negb_true_iff in H1, H2. assert (lt z w = true).
  { apply (le_lt z y w); auto. }
  rewrite H. reflexivity.
Qed.
Lemma filter_none : forall (f : A -> bool) l, (forall x, In x l -> f x = false) -> filter f l = [].
Proof. induction l; cbn; intros; auto. rewrite H by auto. auto. Qed.

Lemma pmerge_stable : forall z xs ys, srt xs -> srt ys ->
  filter (equiv lt z) (pmerge xs ys) = filter (equiv lt z) xs ++ filter (equiv lt z) ys.
Proof.
  intro z. apply (merge_ind (fun xs ys => srt xs -> srt ys -> filter (equiv lt z) (pmerge xs ys) = filter (equiv lt z) xs ++ filter (equiv lt z) ys)); intros.
  - reflexivity.
  - cbn [filter]. rewrite pmerge_nil_r, app_nil_r. reflexivity.
  - rewrite pmerge_cons. pose proof H1 as H1'. pose proof H2 as H2'. destruct H1 as [A1 A2], H2 as [B1 B2].
    destruct (lt y x) eqn:E.
    + cbn [filter]. rewrite (H H1' B2). destruct (equiv lt z y) eqn:Q; [|reflexivity].
      assert (N : filter (equiv lt z) (x :: xr) = []).
      { apply filter_none. intros w [<-|Hw]; apply (equiv_false_lt z y); auto.
        apply (lt_le y x w); auto. }
      rewrite N. cbn [filter] in N. rewrite N. reflexivity.
    + cbn [filter]. rewrite (H0 A2 H2'). cbn [filter]. destruct (equiv lt z x); reflexivity.
Qed.
End Pure.

(** merge (the non-destructive one) *)
Lemma merge_loop_ok : forall {A K} (less : K -> K -> bool) (key : A -> K) f x a y b,
  (length a + length b < f)%nat ->
  merge_loop less key f x (key x) a y (key y) b = Ok (pmerge (fun p q => less (key p) (key q)) (x :: a) (y :: b)).
Proof.
  induction f; intros x a y b Hf; [lia|]. cbn [merge_loop]. rewrite pmerge_cons.
  destruct (less (key y) (key x)).
  - destruct b as [|y1 b1]; [reflexivity|]. cbn in Hf. rewrite IHf by lia. reflexivity.
  - destruct a as [|x1 a1]; [reflexivity|]. cbn in Hf. rewrite IHf by (cbn; lia). reflexivity.
Qed.
Lemma merge_ok : forall {A K} (less : K -> K -> bool) (key : A -> K) a b,
  merge less key a b = Ok (pmerge (fun p q => less (key p) (key q)) a b).
Proof.
  intros. destruct a as [|x a]; [destruct b; reflexivity|]. destruct b as [|y b]; [reflexivity|].
  unfold merge. apply merge_loop_ok. cbn. lia.
Qed.
Lemma sorted_loop_ok : forall {A K} (less : K -> K -> bool) (key : A -> K) l a,
  strict_weak_order less ->
  (sorted_loop less key (key a) l = true <-> srt (fun p q => less (key p) (key q)) (a :: l)).
Proof.
  intros A K less key l a W. revert a. induction l as [|b l IH]; intros a; cbn [sorted_loop srt].
  - split; auto. intros _. split; auto. intros y [].
  - rewrite andb_true_iff, negb_true_iff, (IH b). cbn [srt]. split.
    + intros (H1 & H2 & H3). split; auto. intros y [<-|Hy]; auto. apply (swo_negtrans _ W _ (key b)); auto.
    + intros (H1 & H2 & H3). split; auto. apply H1. left; auto.
Qed.

(** what the step function computes *)
Fixpoint psort {A} (lt : A -> A -> bool) (fuel : nat) (xs : list A) : list A :=
  match fuel with
  | O => xs
  | S f =>
    match xs with
    | [] => []
    | [x] => [x]
    | [x; y] => if lt y x then [y; x] else [x; y]
    | _ => let j := (length xs / 2)%nat in pmerge lt (psort lt f (firstn j xs)) (psort lt f (skipn j xs))
    end
  end.
Lemma psort_perm : forall {A} (lt : A -> A -> bool) f xs, Permutation xs (psort lt f xs).
Proof.
  induction f; intros xs; [reflexivity|]. cbn [psort].
  destruct xs as [|x [|y [|z r]]]; try reflexivity.
  - destruct (lt y x); [apply perm_swap|reflexivity].
  - set (l := x :: y :: z :: r). set (j := (length l / 2)%nat).
    rewrite <- pmerge_perm, <- !IHf. rewrite firstn_skipn. reflexivity.
Qed.
Lemma psort_stable : forall {A} (lt : A -> A -> bool) (W : strict_weak_order lt) f xs, (length xs <= f)%nat ->
  srt lt (psort lt f xs) /\ forall z, filter (equiv lt z) (psort lt f xs) = filter (equiv lt z) xs.
Proof.
  intros A lt W. induction f; intros xs Hf.
  - destruct xs; [|cbn in Hf; lia]. split; [exact Logic.I|reflexivity].
  - cbn [psort]. destruct xs as [|x [|y [|z0 r]]].
    + split; [exact Logic.I|reflexivity].
    + split; [cbn; tauto|reflexivity].
    + destruct (lt y x) eqn:E.
      * split.
        -- cbn. split; [|tauto]. intros w [<-|[]]. apply asym; auto.
        -- intros z. cbn [filter]. destruct (equiv lt z y) eqn:Q; [|reflexivity].
           rewrite (equiv_false_lt lt W z y x); auto.
      * split; [|reflexivity]. cbn. split; [|tauto]. intros w [<-|[]]. auto.
    + set (l := x :: y :: z0 :: r) in *. set (j := (length l / 2)%nat).
      assert (Hj : (1 <= j < length l)%nat).
      { subst j l. cbn [length]. split; [apply (Nat.div_le_lower_bound _ 2 1); lia|apply Nat.div_lt; lia]. }
      destruct (IHf (firstn j l)) as [S1 F1]; [rewrite firstn_length; lia|].
      destruct (IHf (skipn j l)) as [S2 F2]; [rewrite skipn_length; lia|].
      split; [apply pmerge_srt; auto|].
      intros z. rewrite pmerge_stable by auto. rewrite F1, F2, <- filter_app, firstn_skipn. reflexivity.
Qed.
