From Coq Require Import List Bool Arith Lia Permutation Sorted.
From Verif Require Import CbModel CbSpec CbProofs Cb3Model Cb3Spec.
Import ListNotations.

Section C.
Context {A : Type}.
Variable eq : A -> A -> bool.
Hypothesis EQ : equivalence eq.
Implicit Types l set c p seen : list A.
Notation count := (count eq).
Notation member := (member eq).
Notation same := (same eq).
Let Erefl x : eq x x = true. Proof. destruct EQ as (E1 & E2 & E3). eauto. Qed.
Let Esym x y : eq x y = true -> eq y x = true. Proof. destruct EQ as (E1 & E2 & E3). eauto. Qed.
Let Etrans x y z : eq x y = true -> eq y z = true -> eq x z = true. Proof. destruct EQ as (E1 & E2 & E3). eauto. Qed.
Lemma eq_swap x y z : eq x y = true -> eq x z = eq y z.
Proof. intro H. destruct (eq x z) eqn:E, (eq y z) eqn:F; auto; exfalso; [assert (eq y z = true) by eauto|assert (eq x z = true) by eauto]; congruence. Qed.
Lemma count_cons z x l : count z (x :: l) = (if eq z x then 1 else 0) + count z l.
Proof. unfold Cb3Spec.count. cbn. destruct (eq z x); auto. Qed.
Lemma count_app z l l' : count z (l ++ l') = count z l + count z l'.
Proof. induction l as [|x l IH]; auto. cbn [app]. rewrite !count_cons, IH. lia. Qed.
Lemma count_eq x y l : eq x y = true -> count x l = count y l.
Proof. intro H. induction l as [|z l IH]; auto. now rewrite !count_cons, IH, (eq_swap x y z H). Qed.
Lemma count_pos x l : 0 < count x l -> exists l1 y l2, l = l1 ++ y :: l2 /\ eq x y = true.
Proof.
  induction l as [|z l IH]; [cbn; lia|]. rewrite count_cons. destruct (eq x z) eqn:E; intro H; [exists [], z, l; auto|].
  destruct (IH H) as (l1 & y & l2 & -> & Q). exists (z :: l1), y, l2. auto.
Qed.
Lemma count_mid x y l1 l2 : count x (l1 ++ y :: l2) = (if eq x y then 1 else 0) + count x (l1 ++ l2).
Proof. rewrite !count_app, count_cons. lia. Qed.
Lemma member_true x l : member x l = true <-> exists y, In y l /\ eq x y = true.
Proof. unfold Cb3Model.member. rewrite existsb_exists. tauto. Qed.
Lemma member_false x l : member x l = false -> forall y, In y l -> eq x y = false.
Proof. intros H y J. destruct (eq x y) eqn:E; auto. rewrite <- H. symmetry. apply member_true. eauto. Qed.
Lemma member_eq x y l : eq x y = true -> member x l = member y l.
Proof.
  intro E. destruct (member x l) eqn:M, (member y l) eqn:N; auto; exfalso.
  - apply member_true in M. destruct M as (z & J & Q). pose proof (member_false _ _ N z J). assert (eq y z = true) by eauto. congruence.
  - apply member_true in N. destruct N as (z & J & Q). pose proof (member_false _ _ M z J). assert (eq x z = true) by eauto. congruence.
Qed.
Lemma count_diff z l seen : count z (lset_difference eq l seen) = if member z seen then 0 else count z l.
Proof.
  induction l as [|x l IH]; [cbn; now destruct (member z seen)|]. unfold lset_difference in *. cbn [filter].
  destruct (member x seen) eqn:M; cbn [negb]; rewrite ?count_cons, IH.
  - destruct (member z seen) eqn:N; auto. destruct (eq z x) eqn:E; auto. rewrite (member_eq z x seen E) in N. congruence.
  - destruct (member z seen) eqn:N; auto. destruct (eq z x) eqn:E; auto. rewrite (member_eq z x seen E) in N. congruence.
Qed.
Lemma subl_trans l1 l2 l3 : subl l1 l2 -> subl l2 l3 -> subl l1 l3.
Proof. intros H K. revert l1 H. induction K; intros l1 H; auto; [inversion H; subst; constructor; auto|constructor; auto]. Qed.
Lemma subl_filter f l : subl (filter f l) l.
Proof. induction l as [|x l IH]; cbn; [constructor|]. destruct (f x); constructor; auto. Qed.
(** combinations* *)
Fixpoint cl (n : nat) (p seen : list A) : list (list A) :=
  match p with
  | [] => []
  | x :: cdr => if member x seen then cl n cdr seen else map (cons x) (combinations_star eq n (lset_difference eq cdr seen)) ++ cl n cdr (x :: seen)
  end.
Lemma cs_cl n set : combinations_star eq (S n) set = cl n set [].
Proof.
  cbn [combinations_star].
  assert (G : forall p seen r, (fix loop (p seen : list A) (r : list (list A)) {struct p} : list (list A) := match p with
       | [] => rev r
       | x :: cdr => if member x seen then loop cdr seen r
                     else loop cdr (x :: seen) (fold_left (fun r c => (x :: c) :: r) (combinations_star eq n (lset_difference eq cdr seen)) r)
       end) p seen r = rev r ++ cl n p seen).
  { induction p as [|x p IH]; intros seen r; [now rewrite app_nil_r|]. cbn [cl]. destruct (member x seen); auto.
    rewrite IH, fold_rev, rev_app_distr, rev_involutive, <- app_assoc. reflexivity. }
  apply G.
Qed.
Lemma cs_sound n : forall set d, In d (combinations_star eq n set) -> subl d set /\ length d = n.
Proof.
  induction n as [|n IH]; intros set d J; [destruct J as [<-|[]]; split; auto; apply subl_nil|].
  rewrite cs_cl in J. revert J. generalize (@nil A). induction set as [|x set IHs]; intros seen J; [destruct J|]. cbn [cl] in J.
  destruct (member x seen); [destruct (IHs _ J); split; auto; now constructor|]. apply in_app_iff in J. destruct J as [J|J].
  - apply in_map_iff in J. destruct J as (d' & <- & J). apply IH in J. destruct J as (J & L). split; [|cbn; lia]. constructor. eapply subl_trans; [exact J|apply subl_filter].
  - destruct (IHs _ J). split; auto. now constructor.
Qed.
Lemma subl_count c l z : subl c l -> count z c <= count z l.
Proof. induction 1; rewrite ?count_cons; [auto|lia|]. destruct (eq z x); lia. Qed.
Lemma cl_seen n p : forall seen d, In d (cl n p seen) -> forall y, member y seen = true -> count y d = 0.
Proof.
  induction p as [|x p IH]; intros seen d J y M; [destruct J|]. cbn [cl] in J. destruct (member x seen) eqn:X; [eauto|].
  apply in_app_iff in J. destruct J as [J|J].
  - apply in_map_iff in J. destruct J as (d' & <- & J). apply cs_sound in J. destruct J as (J & _). rewrite count_cons.
    apply (subl_count _ _ y) in J. rewrite count_diff, M in J. destruct (eq y x) eqn:E; [|lia]. rewrite (member_eq y x seen E) in M. congruence.
  - apply (IH _ _ J). apply member_true in M. destruct M as (z & K & Q). apply member_true. exists z. split; auto. now right.
Qed.
Lemma cs_complete n : forall set c, length c = n -> part eq c set -> exists d, In d (combinations_star eq n set) /\ same c d.
Proof.
  induction n as [|n IH]; intros set c L P; [destruct c; [|discriminate]; exists []; split; [now left|intro; auto]|]. rewrite cs_cl.
  assert (G : forall p seen, (forall x, count x c <= count x p) -> (forall y, member y seen = true -> count y c = 0) -> exists d, In d (cl n p seen) /\ same c d).
  { induction p as [|x p IHp]; intros seen Q M.
    - exfalso. destruct c as [|y c]; [discriminate|]. specialize (Q y). rewrite count_cons, Erefl in Q. cbn in Q. lia.
    - cbn [cl]. destruct (member x seen) eqn:X.
      + apply IHp; auto. intro z. specialize (Q z). rewrite count_cons in Q. destruct (eq z x) eqn:E; [|exact Q]. rewrite M; [lia|]. now rewrite (member_eq z x seen E).
      + destruct (Nat.eq_dec (count x c) 0) as [Z0|NZ].
        * destruct (IHp (x :: seen)) as (d & J & Sd).
          -- intro z. specialize (Q z). rewrite count_cons in Q. destruct (eq z x) eqn:E; [|exact Q]. rewrite (count_eq z x c E). lia.
          -- intros y H. unfold Cb3Model.member in H. cbn [existsb] in H. apply orb_true_iff in H. destruct H as [H|H]; [now rewrite (count_eq y x c H)|auto].
          -- exists d. split; auto. apply in_app_iff. auto.
        * destruct (count_pos x c) as (c1 & y & c2 & -> & E); [lia|].
          destruct (IH (lset_difference eq p seen) (c1 ++ c2)) as (d & J & Sd).
          -- rewrite app_length in *. cbn in L. lia.
          -- intro z. rewrite count_diff. specialize (Q z). specialize (M z). rewrite count_mid in *. rewrite count_cons in Q.
             destruct (member z seen); [specialize (M Logic.eq_refl); lia|].
             assert (EZ : eq z y = eq z x).
             { destruct (eq z x) eqn:F; [eauto|]. destruct (eq z y) eqn:F2; auto. assert (eq z x = true) by eauto. congruence. }
             rewrite EZ in Q. lia.
          -- exists (x :: d). split; [apply in_app_iff; left; now apply in_map|]. intro z. rewrite count_mid, count_cons, Sd.
             assert (EZ : eq z y = eq z x).
             { destruct (eq z x) eqn:F; [eauto|]. destruct (eq z y) eqn:F2; auto. assert (eq z x = true) by eauto. congruence. }
             now rewrite EZ. }
  apply G; auto. intros y H. discriminate.
Qed.
Lemma fop_app {B} (R : B -> B -> Prop) X Y : ForallOrdPairs R X -> ForallOrdPairs R Y -> (forall x y, In x X -> In y Y -> R x y) -> ForallOrdPairs R (X ++ Y).
Proof.
  induction 1 as [|x X F H IH]; cbn; auto. intros HY D. constructor; [apply Forall_app; split; auto; apply Forall_forall; auto|]. apply IH; auto.
Qed.
Lemma fop_map {B C} (f : B -> C) (R : C -> C -> Prop) (Q : B -> B -> Prop) X : (forall x y, Q x y -> R (f x) (f y)) -> ForallOrdPairs Q X -> ForallOrdPairs R (map f X).
Proof.
  intro H. induction 1 as [|x X F K IH]; cbn; constructor; auto. apply Forall_forall. intros y J. apply in_map_iff in J. destruct J as (z & <- & J).
  rewrite Forall_forall in F. auto.
Qed.
Lemma cs_distinct n : forall set, ForallOrdPairs (fun c d => ~ same c d) (combinations_star eq n set).
Proof.
  induction n as [|n IH]; intro set; [repeat constructor|]. rewrite cs_cl. generalize (@nil A).
  induction set as [|x set IHs]; intro seen; cbn [cl]; [constructor|]. destruct (member x seen); auto. apply fop_app; auto.
  - eapply fop_map; [|apply IH]. intros c d N H. apply N. intro z. specialize (H z). rewrite !count_cons in H. lia.
  - intros c d J K H. apply in_map_iff in J. destruct J as (c' & <- & _). specialize (H x). rewrite count_cons, Erefl in H.
    rewrite (cl_seen n set (x :: seen) d K x) in H; [discriminate|]. unfold Cb3Model.member. cbn. now rewrite Erefl.
Qed.
Lemma csfe_spec {T} n : forall (proc : list A -> T -> T) set s, combinations_star_for_each eq n proc set s = fold_left (fun s c => proc c s) (combinations_star eq n set) s.
Proof.
  induction n as [|n IH]; intros proc set s; [reflexivity|]. rewrite cs_cl. cbn [combinations_star_for_each]. revert s. generalize (@nil A).
  induction set as [|x set IHs]; intros seen s; [reflexivity|]. cbn [cl]. destruct (member x seen); [apply IHs|].
  rewrite fold_left_app, <- IHs, IH, fold_left_map. reflexivity.
Qed.
End C.
