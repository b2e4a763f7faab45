From Coq Require Import List Bool Arith Lia Permutation Sorted Factorial.
From Verif Require Import CbModel CbSpec.
Import ListNotations.

Section C.
Context {A : Type}.
Implicit Types l set c : list A.
(** combinations *)
Fixpoint choose (n : nat) (l : list A) : list (list A) :=
  match n, l with
  | 0, _ => [[]]
  | S _, [] => []
  | S m, x :: r => map (cons x) (choose m r) ++ choose n r
  end.
Lemma fold_cons (x : A) init X : fold_right (fun c acc => (x :: c) :: acc) init X = map (cons x) X ++ init.
Proof. induction X; cbn; congruence. Qed.
Lemma choose_0 l : choose 0 l = [[]]. Proof. now destruct l. Qed.
Lemma choose_gt l : forall n, length l < n -> choose n l = [].
Proof. induction l as [|x l IH]; intros [|n] H; cbn in *; try lia; auto. rewrite !IH by lia. auto. Qed.
Lemma choose_all l : choose (length l) l = [l].
Proof. induction l as [|x l IH]; cbn; auto. rewrite IH, choose_gt by lia. auto. Qed.
Lemma choose_1 l : choose 1 l = map (fun y => [y]) l.
Proof. induction l as [|x l IH]; auto. cbn [choose map]. rewrite choose_0, IH. auto. Qed.
Lemma c_rec_choose l : forall t, t < length l -> c_rec l t = choose (length l - t) l.
Proof.
  induction l as [|x l IH]; intros t H; [cbn in H; lia|]. cbn [c_rec]. destruct (Nat.eqb_spec t 0) as [->|T].
  - rewrite Nat.sub_0_r. now rewrite choose_all.
  - cbn [length] in H. destruct (Nat.eqb_spec (length l) t) as [E|E].
    + cbn [length]. replace (S (length l) - t) with 1 by lia. now rewrite choose_1.
    + rewrite fold_cons, !IH by lia. cbn [length]. replace (S (length l) - t) with (S (length l - t)) by lia. cbn [choose].
      replace (length l - (t - 1)) with (S (length l - t)) by lia. auto.
Qed.
Lemma combinations_choose l n : combinations l n = choose n l.
Proof.
  unfold combinations. destruct (Nat.eqb_spec n 0) as [->|N]; [now rewrite choose_0|].
  destruct (Nat.leb_spec n (length l)); [|now rewrite choose_gt]. rewrite c_rec_choose by lia. f_equal. lia.
Qed.
Lemma subl_nil l : subl [] l. Proof. induction l; constructor; auto. Qed.
Lemma in_choose l : forall n c, In c (choose n l) <-> subl c l /\ length c = n.
Proof.
  induction l as [|x l IH]; intros [|n] c; cbn [choose].
  - split; [intros [<-|[]]; split; auto; constructor|]. intros (H & L). destruct c; [now left|discriminate].
  - split; [intros []|]. intros (H & L). inversion H; subst. discriminate.
  - split; [intros [<-|[]]; split; auto; apply subl_nil|]. intros (H & L). destruct c; [now left|discriminate].
  - rewrite in_app_iff, in_map_iff, IH. split.
    + intros [(d & <- & D)|(H & L)]; [apply IH in D; destruct D; split; [constructor; auto|cbn; lia]|split; auto; now constructor].
    + intros (H & L). inversion H; subst; [left; eexists; split; eauto; apply IH; cbn in L; split; auto; lia|right; auto].
Qed.
Lemma choose_map {B} (f : A -> B) l : forall n, combinations (map f l) n = map (map f) (combinations l n).
Proof.
  unfold combinations. intro n. destruct (n =? 0); auto. rewrite map_length. destruct (n <=? length l); auto. generalize (length l - n). 
  induction l as [|x l IH]; intros t; cbn [map c_rec]; destruct (t =? 0); auto. rewrite map_length. destruct (length l =? t).
  - cbn. f_equal. rewrite !map_map. auto.
  - rewrite !IH. generalize (c_rec l (t - 1)) (c_rec l t). intros u v. induction v as [|d v IHv]; cbn; auto. now rewrite IHv.
Qed.
Lemma subl_in c l x : subl c l -> In x c -> In x l.
Proof. induction 1; cbn; tauto. Qed.
Lemma nodup_app {B} (a b : list B) : NoDup a -> NoDup b -> (forall x, In x a -> ~ In x b) -> NoDup (a ++ b).
Proof.
  induction a as [|x a IH]; cbn; auto. intros N M D. inversion N; subst. constructor; [rewrite in_app_iff; intros [J|J]; [auto|eapply D; eauto]|]. apply IH; auto.
Qed.
Lemma nodup_cons (x : A) X : NoDup X -> NoDup (map (cons x) X).
Proof. intro N. apply FinFun.Injective_map_NoDup; auto. intros a b E. congruence. Qed.
Lemma choose_nodup l : NoDup l -> forall n, NoDup (choose n l).
Proof.
  induction 1 as [|x l NI N IH]; intros [|n]; cbn [choose]; try (repeat constructor; auto; fail).
  apply nodup_app; auto; [now apply nodup_cons|]. intros c J J2. apply in_map_iff in J. destruct J as (d & <- & _).
  apply in_choose in J2. destruct J2 as (J2 & _). apply NI. eapply subl_in; [exact J2|now left].
Qed.
Lemma choose_len l : forall n, length (choose n l) = binom (length l) n.
Proof. induction l as [|x l IH]; intros [|n]; cbn; auto. rewrite app_length, map_length, !IH. auto. Qed.
Lemma ss_app {B} (R : B -> B -> Prop) (a b : list B) : StronglySorted R a -> StronglySorted R b -> (forall x y, In x a -> In y b -> R x y) -> StronglySorted R (a ++ b).
Proof.
  induction 1 as [|x a SA IH F]; cbn; auto. intros SB D. constructor; [apply IH; auto|].
  apply Forall_app. split; auto. apply Forall_forall. intros y J. apply D; auto.
Qed.
Lemma ss_cons R (x : A) X : StronglySorted (lex R) X -> StronglySorted (lex R) (map (cons x) X).
Proof.
  induction 1 as [|a X SX IH F]; cbn; constructor; auto. apply Forall_forall. intros y J. apply in_map_iff in J. destruct J as (d & <- & J).
  apply lex_tl. rewrite Forall_forall in F. auto.
Qed.
Lemma choose_lex R l : StronglySorted R l -> forall n, StronglySorted (lex R) (choose n l).
Proof.
  induction 1 as [|x l SL IH F]; intros [|n]; cbn [choose]; try (repeat constructor; auto; fail).
  apply ss_app; auto; [now apply ss_cons|]. intros a b J J2. apply in_map_iff in J. destruct J as (d & <- & _). apply in_choose in J2.
  destruct J2 as (J2 & L). destruct b as [|y b]; [discriminate|]. apply lex_hd. rewrite Forall_forall in F. apply F. eapply subl_in; [exact J2|now left].
Qed.
Lemma fold_left_map {B C T} (f : B -> C) (g : T -> C -> T) X : forall s, fold_left g (map f X) s = fold_left (fun s (d : B) => g s (f d)) X s.
Proof. induction X; cbn; auto. Qed.
Lemma cfe_spec {S} n : forall (proc : list A -> S -> S) l s, combinations_for_each n proc l s = fold_left (fun s c => proc c s) (choose n l) s.
Proof.
  induction n as [|n IH]; intros proc l s; [rewrite choose_0; reflexivity|]. cbn [combinations_for_each].
  revert s. induction l as [|x l IHl]; intro s; [reflexivity|]. cbn [choose]. rewrite fold_left_app, <- IHl, IH, fold_left_map. reflexivity.
Qed.
(** permutations *)
Fixpoint selp (pre l : list A) : list (A * list A) :=
  match l with [] => [] | x :: r => (x, pre ++ r) :: selp (pre ++ [x]) r end.
Definition ext (G : list A -> list (list A)) (xr : A * list A) := map (cons (fst xr)) (G (snd xr)).
Fixpoint lperms (n : nat) (l : list A) : list (list A) :=
  match n with 0 => [[]] | S n => flat_map (ext (lperms n)) (selp [] l) end.
Lemma but_kth_eq pre (x : A) r : but_kth (pre ++ x :: r) (length pre) = pre ++ r.
Proof.
  destruct pre as [|a [|b [|c [|d pre]]]]; try reflexivity.
  set (p := a :: b :: c :: d :: pre). change (but_kth (p ++ x :: r) (length p)) with (firstn (length p) (p ++ x :: r) ++ tl (skipn (length p) (p ++ x :: r))).
  rewrite firstn_app, firstn_all, Nat.sub_diag, skipn_app, skipn_all, Nat.sub_diag. cbn [firstn skipn app tl]. now rewrite app_nil_r.
Qed.
Lemma fold_rev (x : A) X : forall acc, fold_left (fun acc p => (x :: p) :: acc) X acc = rev (map (cons x) X) ++ acc.
Proof. induction X as [|p X IH]; intro acc; cbn; auto. rewrite IH, <- app_assoc. reflexivity. Qed.
Lemma fwi_spec G l : forall pre acc, fold_with_index (fun ind (elt : A) acc => fold_left (fun acc p => (elt :: p) :: acc) (G (but_kth (pre ++ l) ind)) acc) (length pre) l acc
  = rev (flat_map (ext G) (selp pre l)) ++ acc.
Proof.
  induction l as [|x l IH]; intros pre acc; [reflexivity|]. cbn [fold_with_index selp flat_map]. rewrite but_kth_eq, fold_rev.
  specialize (IH (pre ++ [x])). rewrite app_length in IH. cbn [length] in IH. rewrite <- app_assoc in IH. cbn [app] in IH. rewrite IH.
  rewrite rev_app_distr, <- app_assoc. reflexivity.
Qed.
Lemma in_selp l : forall pre x r, In (x, r) (selp pre l) <-> exists l1 l2, l = l1 ++ x :: l2 /\ r = pre ++ l1 ++ l2.
Proof.
  induction l as [|y l IH]; intros pre x r; cbn [selp].
  - split; [intros []|]. intros ([|? ?] & ? & E & _); discriminate.
  - cbn. rewrite IH. split.
    + intros [E|(l1 & l2 & -> & ->)]; [injection E as <- <-; exists [], l; auto|]. exists (y :: l1), l2. split; auto. now rewrite <- app_assoc.
    + intros ([|z l1] & l2 & E & ->); cbn in E; injection E as <- ->; [left; auto|]. right. exists l1, l2. split; auto. now rewrite <- app_assoc.
Qed.
Lemma selp_len pre l x r : In (x, r) (selp pre l) -> length r + 1 = length pre + length l.
Proof. intro H. apply in_selp in H. destruct H as (l1 & l2 & -> & ->). rewrite !app_length. cbn. lia. Qed.
Lemma flat_map_ext_in {B C} (f g : B -> list C) X : (forall x, In x X -> f x = g x) -> flat_map f X = flat_map g X.
Proof. induction X as [|x X IH]; cbn; auto. intro H. rewrite IH, (H x); auto. Qed.
Lemma perms_lperms k : forall l, length l <= k -> perms k l = lperms (length l) l.
Proof.
  assert (E0 : forall k (l : list A), length l <= 3 -> perms k l = lperms (length l) l).
  { intros k0 l H. destruct l as [|a [|b [|c [|d l]]]]; cbn [length] in H; try lia; destruct k0; reflexivity. }
  induction k as [|k IH]; intros l H; [apply E0; lia|]. destruct (Nat.le_gt_cases (length l) 3) as [L|L]; [auto|].
  destruct l as [|a [|b [|c [|d l]]]]; cbn [length] in L; try lia. set (set := a :: b :: c :: d :: l) in *.
  change (perms (S k) set) with (rev (fold_with_index (fun ind elt acc => fold_left (fun acc p => (elt :: p) :: acc) (perms k (but_kth set ind)) acc) 0 set [])).
  etransitivity; [apply f_equal; exact (fwi_spec (perms k) set [] [])|]. rewrite app_nil_r, rev_involutive.
  change (lperms (length set) set) with (flat_map (ext (lperms (length (b :: c :: d :: l)))) (selp [] set)).
  apply flat_map_ext_in. intros (x & r) J. pose proof (selp_len _ _ _ _ J) as Q. unfold ext. cbn [fst snd].
  unfold set in Q, H. cbn [length] in Q, H. rewrite IH by lia. f_equal. f_equal. cbn [length]. lia.
Qed.
Lemma permutations_lperms l : permutations l = lperms (length l) l.
Proof. apply perms_lperms. auto. Qed.
Lemma in_lperms n : forall l p, length l = n -> In p (lperms n l) <-> Permutation l p.
Proof.
  induction n as [|n IH]; intros l p L; cbn [lperms].
  - destruct l; [|discriminate]. split; [intros [<-|[]]; auto|]. intro H. apply Permutation_nil in H. subst. now left.
  - rewrite in_flat_map. split.
    + intros ((x & r) & J & K). pose proof (selp_len _ _ _ _ J) as Q. apply in_selp in J. destruct J as (l1 & l2 & -> & ->). unfold ext in K. cbn [fst snd app] in *.
      apply in_map_iff in K. destruct K as (q & <- & K). apply IH in K; [|cbn in Q; lia].
      eapply Permutation_trans; [apply Permutation_sym, Permutation_middle|]. now apply perm_skip.
    + intro H. destruct p as [|x q]; [apply Permutation_sym, Permutation_nil in H; subst; discriminate|].
      assert (J : In x l) by (eapply Permutation_in; [apply Permutation_sym; exact H|now left]).
      apply in_split in J. destruct J as (l1 & l2 & ->). exists (x, l1 ++ l2). split; [apply in_selp; exists l1, l2; auto|]. unfold ext. cbn [fst snd].
      apply in_map. apply IH; [rewrite app_length in *; cbn in L; lia|].
      apply Permutation_cons_inv with x. eapply Permutation_trans; [apply Permutation_middle|exact H].
Qed.
Lemma head_in G pre l p : In p (flat_map (ext G) (selp pre l)) -> exists x q, p = x :: q /\ In x l.
Proof.
  rewrite in_flat_map. intros ((x & r) & J & K). apply in_selp in J. destruct J as (l1 & l2 & -> & _). unfold ext in K. apply in_map_iff in K.
  destruct K as (q & <- & _). exists x, q. split; auto. apply in_app_iff. right. now left.
Qed.
Lemma flat_nodup G l : forall pre, NoDup l -> (forall x r, In (x, r) (selp pre l) -> NoDup (G r)) -> NoDup (flat_map (ext G) (selp pre l)).
Proof.
  induction l as [|x l IH]; intros pre N H; [constructor|]. inversion N; subst. cbn [selp flat_map]. cbn [selp] in H. apply nodup_app.
  - apply nodup_cons. eapply H. now left.
  - apply IH; auto. intros y r J. eapply H. right. eauto.
  - intros p J J2. unfold ext in J. apply in_map_iff in J. destruct J as (q & <- & _). apply head_in in J2. destruct J2 as (y & q' & E & J2). cbn in E. congruence.
Qed.
Lemma lperms_nodup n : forall l, NoDup l -> length l = n -> NoDup (lperms n l).
Proof.
  induction n as [|n IH]; intros l N L; cbn [lperms]; [repeat constructor; auto|]. apply flat_nodup; auto. intros x r J. apply IH.
  - apply in_selp in J. destruct J as (l1 & l2 & -> & ->). cbn. eapply NoDup_remove_1; eauto.
  - apply selp_len in J. cbn in J. lia.
Qed.
Lemma ss_remove (R : A -> A -> Prop) l1 x l2 : StronglySorted R (l1 ++ x :: l2) -> StronglySorted R (l1 ++ l2).
Proof.
  induction l1 as [|y l1 IH]; cbn; intro H; inversion H; subst; auto. constructor; auto. apply Forall_app in H3. destruct H3 as (F1 & F2). inversion F2; subst. apply Forall_app; auto.
Qed.
Lemma flat_lex R G l : forall pre, StronglySorted R l -> (forall x r, In (x, r) (selp pre l) -> StronglySorted (lex R) (G r)) -> StronglySorted (lex R) (flat_map (ext G) (selp pre l)).
Proof.
  induction l as [|x l IH]; intros pre N H; [constructor|]. inversion N; subst. cbn [selp flat_map]. cbn [selp] in H. apply ss_app.
  - apply ss_cons. eapply H. now left.
  - apply IH; auto. intros y r J. eapply H. right. eauto.
  - intros p p' J J2. unfold ext in J. apply in_map_iff in J. destruct J as (q & <- & _). apply head_in in J2. destruct J2 as (y & q' & -> & J2). cbn. apply lex_hd.
    rewrite Forall_forall in H3. auto.
Qed.
Lemma lperms_lex R n : forall l, StronglySorted R l -> length l = n -> StronglySorted (lex R) (lperms n l).
Proof.
  induction n as [|n IH]; intros l N L; cbn [lperms]; [repeat constructor; auto|]. apply flat_lex; auto. intros x r J. apply IH.
  - apply in_selp in J. destruct J as (l1 & l2 & -> & ->). cbn. eapply ss_remove; eauto.
  - apply selp_len in J. cbn in J. lia.
Qed.
Lemma flat_len G n l : forall pre, (forall x r, In (x, r) (selp pre l) -> length (G r) = n) -> length (flat_map (ext G) (selp pre l)) = length l * n.
Proof.
  induction l as [|x l IH]; intros pre H; [reflexivity|]. cbn [selp flat_map length]. cbn [selp] in H. rewrite app_length, IH; [|intros y r J; eapply H; right; eauto].
  unfold ext. rewrite map_length. cbn [fst snd]. rewrite (H x (pre ++ l)); [|now left]. reflexivity.
Qed.
Lemma lperms_len n : forall l, length l = n -> length (lperms n l) = fact n.
Proof.
  induction n as [|n IH]; intros l L; [reflexivity|]. cbn [lperms]. rewrite (flat_len _ (fact n)), L; [reflexivity|].
  intros x r J. apply IH. apply selp_len in J. cbn in J. lia.
Qed.
(** for-each *)
Section F.
Context {S : Type}.
Lemma fwi_each G (proc : list A -> S -> S) (E : (list A -> S -> S) -> list A -> S -> S) l : forall pre s,
  (forall x r, In (x, r) (selp pre l) -> forall s, E (fun p => proc (x :: p)) r s = fold_left (fun s p => proc (x :: p) s) (G r) s) ->
  fold_with_index (fun ind elt s => E (fun p => proc (elt :: p)) (but_kth (pre ++ l) ind) s) (length pre) l s
  = fold_left (fun s p => proc p s) (flat_map (ext G) (selp pre l)) s.
Proof.
  induction l as [|x l IH]; intros pre s H; [reflexivity|]. cbn [fold_with_index selp flat_map]. cbn [selp] in H. rewrite but_kth_eq, fold_left_app.
  rewrite (H x (pre ++ l)); [|now left]. change (ext G (x, pre ++ l)) with (map (cons x) (G (pre ++ l))). rewrite fold_left_map.
  specialize (IH (pre ++ [x])). rewrite app_length in IH. cbn [length] in IH. rewrite <- app_assoc in IH. cbn [app] in IH. apply IH.
  intros y r J. apply H. now right.
Qed.
Lemma each_star_spec n : forall (proc : list A -> S -> S) l s, length l = n + 4 -> each_star (n + 4) proc l s = fold_left (fun s p => proc p s) (lperms (n + 4) l) s.
Proof.
  induction n as [|n IH]; intros proc l s L.
  - destruct l as [|a [|b [|c [|d [|e l]]]]]; cbn in L; try lia. reflexivity.
  - cbn [Nat.add each_star]. destruct (Nat.eqb_spec (Datatypes.S (n + 4)) 4); [lia|]. cbn [lperms].
    apply (fwi_each (lperms (n + 4)) proc (each_star (n + 4)) l [] s). intros x r J s'. apply IH. apply selp_len in J. cbn in J. lia.
Qed.
Lemma pfe_spec (proc : list A -> S -> S) l s : l <> [] -> permutations_for_each proc l s = fold_left (fun s p => proc p s) (permutations l) s.
Proof.
  intro N. rewrite permutations_lperms. destruct l as [|a [|b [|c [|d [|e l]]]]]; try congruence; try reflexivity.
  set (set := a :: b :: c :: d :: e :: l). change (permutations_for_each proc set s) with (each_star (length set) proc set s).
  replace (length set) with (length l + 1 + 4) by (cbn; lia). apply each_star_spec. cbn. lia.
Qed.
End F.
End C.
