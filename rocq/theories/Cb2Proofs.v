From Coq Require Import List Bool Arith Lia Permutation Sorted.
From Verif Require Import CbModel CbSpec CbProofs Cb2Model.
Import ListNotations.

Section C.
Context {A : Type}.
Implicit Types l set c : list A.
(** power sets *)
Lemma binary_in l : forall c, In c (power_set_binary l) <-> subl c l.
Proof.
  induction l as [|x l IH]; intro c; cbn; [split; [intros [<-|[]]; constructor|intro H; inversion H; auto]|].
  rewrite in_app_iff, in_map_iff, IH. split; [intros [H|(d & <- & H)]; [now constructor|constructor; now apply IH]|].
  intro H. inversion H; subst; [right; eexists; split; eauto; now apply IH|now left].
Qed.
Lemma binary_nodup l : NoDup l -> NoDup (power_set_binary l).
Proof.
  induction 1 as [|x l NI N IH]; cbn; [repeat constructor; auto|]. apply nodup_app; auto; [now apply nodup_cons|].
  intros c J J2. apply in_map_iff in J2. destruct J2 as (d & <- & _). apply binary_in in J. apply NI. eapply subl_in; [exact J|now left].
Qed.
Lemma binary_len l : length (power_set_binary l) = 2 ^ length l.
Proof. induction l as [|x l IH]; cbn; auto. rewrite app_length, map_length, IH. lia. Qed.
Lemma power_loop_eq l k : forall i, i + k = length l + 1 -> power_loop k l i = flat_map (combinations l) (seq i k).
Proof.
  induction k as [|k IH]; intros i H; cbn [power_loop]; [destruct (Nat.ltb_spec (length l) i); [auto|lia]|].
  destruct (Nat.ltb_spec (length l) i); [lia|]. cbn [seq flat_map]. rewrite IH by lia. now rewrite Nat.add_1_r.
Qed.
Lemma power_eq l : power_set l = flat_map (combinations l) (seq 0 (length l + 1)).
Proof. apply power_loop_eq. auto. Qed.
Lemma subl_len c l : subl c l -> length c <= length l.
Proof. induction 1; cbn; lia. Qed.
Lemma power_in l c : In c (power_set l) <-> subl c l.
Proof.
  rewrite power_eq, in_flat_map. split.
  - intros (i & _ & H). rewrite combinations_choose in H. now apply in_choose in H.
  - intro H. exists (length c). split; [apply in_seq; pose proof (subl_len _ _ H); lia|]. rewrite combinations_choose. apply in_choose. auto.
Qed.
Lemma power_nodup l : NoDup l -> NoDup (power_set l).
Proof.
  intro N. rewrite power_eq. generalize 0 (length l + 1). intros i k. revert i. induction k as [|k IH]; intro i; cbn; [constructor|].
  apply nodup_app; auto; [rewrite combinations_choose; now apply choose_nodup|]. intros c J J2. apply in_flat_map in J2. destruct J2 as (j & J1 & J2).
  rewrite combinations_choose in J, J2. apply in_choose in J, J2. apply in_seq in J1. lia.
Qed.
Lemma power_sizes l : StronglySorted (fun a b => length a <= length b) (power_set l).
Proof.
  rewrite power_eq. generalize 0 (length l + 1). intros i k. revert i. induction k as [|k IH]; intro i; cbn [seq flat_map]; [constructor|].
  apply ss_app; auto.
  - rewrite combinations_choose. assert (G : forall c, In c (choose i l) -> length c = i) by (intros c J; now apply in_choose in J).
    induction (choose i l) as [|c X IHX]; constructor; [apply IHX; intros d J; apply G; now right|]. apply Forall_forall. intros d J.
    rewrite (G c), (G d); auto; [now right|now left].
  - intros c d J J2. apply in_flat_map in J2. destruct J2 as (j & J1 & J2). rewrite combinations_choose in J, J2. apply in_choose in J, J2. apply in_seq in J1. lia.
Qed.
Lemma power_perm l : NoDup l -> Permutation (power_set l) (power_set_binary l).
Proof.
  intro N. apply NoDup_Permutation; [now apply power_nodup|now apply binary_nodup|]. intro c. now rewrite power_in, binary_in.
Qed.
Lemma flat_map_map {B C} (f : B -> C) {D} (g : D -> list B) X : map f (flat_map g X) = flat_map (fun d => map f (g d)) X.
Proof. induction X; cbn; auto. rewrite map_app. congruence. Qed.
(** cartesian products *)
Lemma cp_in lol : forall t : list A, In t (cartesian_product lol) <-> Forall2 (fun x l => In x l) t lol.
Proof.
  induction lol as [|l lol IH]; intro t; cbn; [split; [intros [<-|[]]; constructor|intro H; inversion H; auto]|].
  rewrite in_flat_map. split.
  - intros (x & J & K). apply in_map_iff in K. destruct K as (u & <- & K). constructor; auto. now apply IH.
  - intro H. inversion H; subst. exists x. split; auto. apply in_map. now apply IH.
Qed.
Lemma cpr_in lol : forall t : list A, In t (cartesian_product_right lol) <-> Forall2 (fun x l => In x l) t lol.
Proof.
  induction lol as [|l lol IH]; intro t; cbn; [split; [intros [<-|[]]; constructor|intro H; inversion H; auto]|].
  rewrite in_flat_map. split.
  - intros (u & J & K). apply in_map_iff in K. destruct K as (x & <- & K). constructor; auto. now apply IH.
  - intro H. inversion H; subst. exists l0. split; [now apply IH|]. apply in_map_iff. exists x. auto.
Qed.
Definition product (ns : list nat) := fold_right Nat.mul 1 ns.
Lemma flat_const {B C} (f : B -> list C) n X : (forall x, In x X -> length (f x) = n) -> length (flat_map f X) = length X * n.
Proof. induction X as [|x X IH]; cbn; auto. intro H. rewrite app_length, IH, (H x); auto. Qed.
Lemma cp_len lol : length (@cartesian_product A lol) = product (map (@length A) lol).
Proof. induction lol as [|l lol IH]; cbn; auto. rewrite (flat_const _ (product (map (@length A) lol))); [reflexivity|]. intros x _. now rewrite map_length. Qed.
Lemma cp_nodup lol : Forall (@NoDup A) lol -> NoDup (cartesian_product lol).
Proof.
  induction 1 as [|l lol N F IH]; cbn; [repeat constructor; auto|]. induction N as [|x l NI N IHN]; cbn; [constructor|].
  apply nodup_app; auto; [now apply (nodup_cons x)|]. intros t J J2. apply in_map_iff in J. destruct J as (u & <- & _). apply in_flat_map in J2.
  destruct J2 as (y & J2 & J3). apply in_map_iff in J3. destruct J3 as (v & E & _). congruence.
Qed.
Lemma cp_lex R lol : Forall (StronglySorted R) lol -> StronglySorted (lex R) (@cartesian_product A lol).
Proof.
  induction 1 as [|l lol SL F IH]; cbn; [repeat constructor; auto|]. induction SL as [|x l SL IHl FL]; cbn; [constructor|].
  apply ss_app; auto; [now apply (ss_cons R x)|]. intros t u J J2. apply in_map_iff in J. destruct J as (t' & <- & _). apply in_flat_map in J2.
  destruct J2 as (y & J2 & J3). apply in_map_iff in J3. destruct J3 as (v & <- & _). apply lex_hd. rewrite Forall_forall in FL. auto.
Qed.
Lemma cp_snoc lol (l : list A) : cartesian_product (lol ++ [l]) = flat_map (fun p => map (fun x => p ++ [x]) l) (cartesian_product lol).
Proof.
  induction lol as [|k lol IH]; cbn.
  - rewrite app_nil_r. induction l; cbn; auto.
  - rewrite IH. clear IH. induction k as [|x k IH]; cbn; auto. rewrite flat_map_app, <- IH. f_equal. clear.
    induction (cartesian_product lol) as [|p X IHX]; cbn; auto. rewrite map_app, IHX, map_map. reflexivity.
Qed.
Lemma cpr_rev lol : @cartesian_product_right A lol = map (@rev A) (cartesian_product (rev lol)).
Proof.
  induction lol as [|l lol IH]; cbn; auto. rewrite cp_snoc, IH. clear. induction (cartesian_product (rev lol)) as [|p X IHX]; cbn; auto.
  rewrite map_app, IHX. f_equal. rewrite map_map. apply map_ext. intro x. now rewrite rev_app_distr.
Qed.
Section F.
Context {S : Type}.
Lemma cpfe_spec lol : forall (proc : list A -> S -> S) s, cartesian_product_for_each proc lol s = fold_left (fun s t => proc t s) (cartesian_product lol) s.
Proof.
  induction lol as [|l lol IH]; intros proc s; cbn; auto. revert s. induction l as [|x l IHl]; intro s; cbn; auto.
  rewrite fold_left_app, IHl, IH. f_equal. now rewrite fold_left_map.
Qed.
Lemma cprfe_spec lol : forall (proc : list A -> S -> S) s, cartesian_product_right_for_each proc lol s = fold_left (fun s t => proc t s) (cartesian_product_right lol) s.
Proof.
  induction lol as [|l lol IH]; intros proc s; cbn; auto. rewrite IH. generalize (cartesian_product_right lol). intro X. revert s. induction X as [|t X IHX]; intro s; cbn; auto.
  rewrite fold_left_app, IHX. f_equal. now rewrite fold_left_map.
Qed.
Lemma pfl_spec (l : list A) (proc : list A -> S -> S) k : forall i s, power_for_each_loop k proc l i s = fold_left (fun s c => proc c s) (power_loop k l i) s.
Proof.
  induction k as [|k IH]; intros i s; cbn [power_for_each_loop power_loop]; destruct (length l <? i); auto.
  rewrite fold_left_app, IH. f_equal. now rewrite cfe_spec, combinations_choose.
Qed.
End F.
End C.
Lemma power_len {A} (l : list A) : length (power_set l) = 2 ^ length l.
Proof.
  assert (E : length (power_set l) = length (power_set (seq 0 (length l)))).
  { rewrite !power_eq, seq_length. generalize (seq 0 (length l + 1)). intro X. induction X as [|i X IH]; cbn; auto.
    rewrite !app_length, IH. f_equal. rewrite !combinations_choose, !choose_len, seq_length. auto. }
  rewrite E, (Permutation_length (power_perm _ (seq_NoDup (length l) 0))), binary_len, seq_length. reflexivity.
Qed.
