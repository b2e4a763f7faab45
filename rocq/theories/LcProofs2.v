(** lcs-fold and lcs-edit-list. *)
From Coq Require Import List Bool Arith ZArith Lia.
From Verif Require Import LcModel LcSpec LcProofs.
Import ListNotations.
Local Open Scope Z_scope.

Section L.
Context {A : Type}.
Variable eq : A -> A -> bool.
Notation turns := (turns eq).
Definition kept (s : list (cmd A)) : list A := flat_map (fun c => match c with Keep e => [e] | _ => [] end) s.
Lemma turns_del l s a b : turns s a b -> turns (map (@Del A) l ++ s) (l ++ a) b.
Proof. intro T. induction l; cbn; auto. constructor. auto. Qed.
Lemma turns_ins l s a b : turns s a b -> turns (map (@Ins A) l ++ s) a (l ++ b).
Proof. intro T. induction l; cbn; auto. constructor. auto. Qed.
Lemma kept_del l s : kept (map (@Del A) l ++ s) = kept s.
Proof. induction l; cbn; auto. Qed.
Lemma kept_ins l s : kept (map (@Ins A) l ++ s) = kept s.
Proof. induction l; cbn; auto. Qed.
Lemma turns_length s a b : turns s a b -> (changes s + 2 * length (kept s) = length a + length b)%nat.
Proof. unfold changes, kept. induction 1; cbn [flat_map filter length app] in *; lia. Qed.
Lemma run_app {S} (fa fb fc : A -> S -> S) s t st : run fa fb fc (s ++ t) st = run fa fb fc t (run fa fb fc s st).
Proof. apply fold_left_app. Qed.
Lemma run_del {S} (fa fb fc : A -> S -> S) l : forall st, run fa fb fc (map (@Del A) l) st = fold fa st l.
Proof. induction l as [|e l IH]; intro st; cbn; auto. apply IH. Qed.
Lemma run_ins {S} (fa fb fc : A -> S -> S) l : forall st, run fa fb fc (map (@Ins A) l) st = fold fb st l.
Proof. induction l as [|e l IH]; intro st; cbn; auto. apply IH. Qed.
Lemma split_spec (l : list A) n e : 0 <= n -> nth_error l (Z.to_nat n) = Some e -> exists h t, split_at l n = Some (h, e :: t) /\ l = h ++ e :: t /\
  Z.of_nat (length h) = n.
Proof.
  intros P E. assert (L : (Z.to_nat n < length l)%nat) by (apply nth_error_Some; congruence).
  destruct (nth_error_split _ _ E) as (h & t & EL & LH). exists h, t. unfold split_at.
  destruct (Z.ltb_spec n 0); [lia|]. destruct (Z.ltb_spec (Z.of_nat (length l)) n); [lia|]. cbn [orb].
  rewrite EL, <- LH. rewrite firstn_app, skipn_app, firstn_all, skipn_all, Nat.sub_diag. cbn. rewrite app_nil_r. repeat split; auto. lia.
Qed.
Lemma nth_tail (h : list A) e t x p : p + Z.of_nat (length h) + 1 <= x -> nth_error (h ++ e :: t) (Z.to_nat (x - p)) = nth_error t (Z.to_nat (x - (p + Z.of_nat (length h) + 1))).
Proof.
  intro L. rewrite nth_error_app2 by lia. replace (Z.to_nat (x - p) - length h)%nat with (S (Z.to_nat (x - (p + Z.of_nat (length h) + 1)))) by lia. reflexivity.
Qed.
Lemma increasing_ge (l : list (A * Z * Z)) : forall i j e u v, increasing i j l -> In (e, u, v) l -> i <= u /\ j <= v.
Proof.
  induction l as [|((e0 & u0) & v0) l IH]; intros i j e u v X J; [destruct J|]. cbn in X. destruct X as (X1 & X2 & X3).
  destruct J as [J|J]; [inversion J; subst; auto|]. specialize (IH _ _ _ _ _ X3 J). lia.
Qed.
Lemma fold_common_spec l : forall sa sb ap bp, increasing ap bp l ->
  (forall e x y, In (e, x, y) l -> nth_error sa (Z.to_nat (x - ap)) = Some e /\ exists e', nth_error sb (Z.to_nat (y - bp)) = Some e' /\ eq e e' = true) ->
  exists sc, turns sc sa sb /\ kept sc = map (fun t => fst (fst t)) l /\
    forall (S : Type) (fa fb fc : A -> S -> S) seed, fold_common fa fb fc l seed sa ap sb bp = Some (run fa fb fc sc seed).
Proof.
  induction l as [|((e & x) & y) l IH]; intros sa sb ap bp IN H.
  - exists (map (@Del A) sa ++ map (@Ins A) sb ++ []). split; [|split].
    + rewrite <- (app_nil_r sa) at 2. apply turns_del. rewrite <- (app_nil_r sb) at 2. apply turns_ins. constructor.
    + now rewrite kept_del, kept_ins.
    + intros. cbn [fold_common]. now rewrite app_nil_r, run_app, run_del, run_ins.
  - cbn in IN. destruct IN as (I1 & I2 & IN). destruct (H e x y (or_introl eq_refl)) as (Ea & e' & Eb & EQ).
    destruct (split_spec sa (x - ap) e ltac:(lia) Ea) as (ha & ta & Sa & -> & La).
    destruct (split_spec sb (y - bp) e' ltac:(lia) Eb) as (hb & tb & Sb & -> & Lb).
    destruct (IH ta tb (x + 1) (y + 1) IN) as (sc & T & K & R).
    { intros e1 u v J. destruct (increasing_ge _ _ _ _ _ _ IN J). destruct (H e1 u v (or_intror J)) as (P1 & e2 & P2 & P3).
      rewrite nth_tail in P1, P2 by lia. replace (ap + Z.of_nat (length ha) + 1) with (x + 1) in P1 by lia.
      replace (bp + Z.of_nat (length hb) + 1) with (y + 1) in P2 by lia. eauto. }
    exists (map (@Del A) ha ++ map (@Ins A) hb ++ Keep e :: sc). split; [|split].
    + apply turns_del, turns_ins. econstructor; eauto.
    + rewrite kept_del, kept_ins. change (kept (Keep e :: sc)) with (e :: kept sc). now rewrite K.
    + intros. cbn [fold_common]. rewrite Sa, Sb. cbn [cdr]. rewrite R. rewrite !run_app, run_del, run_ins. reflexivity.
Qed.
(** scripts are pairings *)
Definition shift (i j : Z) (l : list (A * Z * Z)) := map (fun '(e, x, y) => (e, x + i, y + j)) l.
Lemma shift_inc l i j : forall u v, increasing u v l -> increasing (u + i) (v + j) (shift i j l).
Proof.
  induction l as [|((e & x) & y) l IH]; intros u v; cbn; auto. intros (P & Q & R). repeat split; try lia.
  replace (x + i + 1) with (x + 1 + i) by lia. replace (y + j + 1) with (y + 1 + j) by lia. auto.
Qed.
Lemma inc_le (l : list (A * Z * Z)) u v u' v' : u' <= u -> v' <= v -> increasing u v l -> increasing u' v' l.
Proof. destruct l as [|((e & x) & y) l]; cbn; auto. intros ? ? (P & Q & R). repeat split; auto; lia. Qed.
Lemma shift_pairing l a b ha hb : pairing eq a b l ->
  increasing (Z.of_nat (length ha)) (Z.of_nat (length hb)) (shift (Z.of_nat (length ha)) (Z.of_nat (length hb)) l) /\
  forall e x y, In (e, x, y) (shift (Z.of_nat (length ha)) (Z.of_nat (length hb)) l) -> nth_error (ha ++ a) (Z.to_nat x) = Some e /\ exists e', nth_error (hb ++ b) (Z.to_nat y) = Some e' /\ eq e e' = true.
Proof.
  intros (P & Q). split.
  - apply (shift_inc l (Z.of_nat (length ha)) (Z.of_nat (length hb)) 0 0 P).
  - intros e x y J. unfold shift in J. apply in_map_iff in J. destruct J as (((e0 & x0) & y0) & E & J). inversion E; subst.
    destruct (Q _ _ _ J) as (Q1 & e' & Q2 & Q3). destruct (increasing_ge _ _ _ _ _ _ P J).
    rewrite !nth_error_app2 by lia. replace (Z.to_nat (x0 + Z.of_nat (length ha)) - length ha)%nat with (Z.to_nat x0) by lia.
    replace (Z.to_nat (y0 + Z.of_nat (length hb)) - length hb)%nat with (Z.to_nat y0) by lia. eauto.
Qed.
Lemma turns_pairing s a b : turns s a b -> exists l, pairing eq a b l /\ length l = length (kept s).
Proof.
  induction 1 as [|e s a b T (l & P & L)|e s a b T (l & P & L)|e e' s a b EQ T (l & P & L)].
  - exists []. split; auto. split; [exact Logic.I|intros e x y []].
  - destruct (shift_pairing l a b [e] [] P) as (S1 & S2). eexists. split; [split; [|exact S2]|]; [|unfold shift; rewrite map_length; exact L].
    eapply inc_le; [| |exact S1]; cbn; lia.
  - destruct (shift_pairing l a b [] [e] P) as (S1 & S2). eexists. split; [split; [|exact S2]|]; [|unfold shift; rewrite map_length; exact L].
    eapply inc_le; [| |exact S1]; cbn; lia.
  - destruct (shift_pairing l a b [e] [e'] P) as (S1 & S2). exists ((e, 0, 0) :: shift 1 1 l). split; [split|].
    + cbn. repeat split; try lia. exact S1.
    + intros e1 x y [J|J]; [inversion J; subst; cbn; eauto|]. apply S2. exact J.
    + cbn. unfold shift. rewrite map_length. now rewrite L.
Qed.
Lemma best a b : exists l sc, lcs_with_positions eq a b = Some (Z.of_nat (length l), l) /\ turns sc a b /\ kept sc = map (fun t => fst (fst t)) l /\
  (forall s, turns s a b -> (changes sc <= changes s)%nat) /\
  forall (S : Type) (fa fb fc : A -> S -> S) seed, lcs_fold eq fa fb fc seed a b = Some (run fa fb fc sc seed).
Proof.
  destruct (lwp_spec eq a b) as (m & l & E & -> & P & MX). pose proof P as (P1 & P2).
  destruct (fold_common_spec l a b 0 0 P1) as (sc & T & K & R).
  { intros e x y J. rewrite !Z.sub_0_r. auto. }
  exists l, sc. split; auto. split; auto. split; auto. split.
  - intros s Ts. destruct (turns_pairing s a b Ts) as (l' & Pl & Ll). specialize (MX l' Pl).
    apply turns_length in T, Ts. rewrite K, map_length in T. lia.
  - intros. unfold lcs_fold. rewrite E. apply R.
Qed.
(** subsequences *)
Lemma turns_all a b : exists s, turns s a b.
Proof.
  exists (map (@Del A) a ++ map (@Ins A) b ++ []). rewrite <- (app_nil_r a) at 2. apply turns_del. rewrite <- (app_nil_r b) at 2. apply turns_ins. constructor.
Qed.
Lemma subseq_turns (EQ : forall x, eq x x = true) s a : subseq s a -> forall b, subseq s b -> exists sc, turns sc a b /\ (length s <= length (kept sc))%nat.
Proof.
  induction 1 as [a|x s a SA IH|x s a SA IH]; intros b SB.
  - destruct (turns_all a b) as (sc & T). exists sc. split; auto. cbn. lia.
  - remember (x :: s) as xs eqn:E. induction SB as [b|y s' b SB IHb|y s' b SB IHb]; [discriminate| |].
    + inversion E; subst. destruct (IH b SB) as (sc & T & L). exists (Keep x :: sc). split; [econstructor; eauto|unfold kept in *; cbn [flat_map app length] in *; lia].
    + destruct (IHb E) as (sc & T & L). exists (Ins y :: sc). split; [constructor; auto|unfold kept in *; cbn [flat_map app length] in *; lia].
  - destruct (IH b SB) as (sc & T & L). exists (Del x :: sc). split; [constructor; auto|unfold kept in *; cbn [flat_map app length] in *; lia].
Qed.
Lemma kept_a s a b : turns s a b -> subseq (kept s) a.
Proof. induction 1; [apply sub_nil|now apply sub_skip|auto|now apply sub_keep]. Qed.
Lemma kept_b (EQ : forall x y, eq x y = true -> x = y) s a b : turns s a b -> subseq (kept s) b.
Proof. induction 1; [apply sub_nil|auto|now apply sub_skip|]. apply EQ in H. subst. now apply sub_keep. Qed.
(** edit lists *)
Lemma run_edit (sc : list (cmd A)) : forall s, rev (close (run e_a e_b e_c sc s)) = rev (hunks s) ++ together (rev (hunk s)) (number (apos s + 1) (bpos s + 1) sc).
Proof.
  assert (CL : forall s, rev (@close A s) = rev (hunks s) ++ nonempty (rev (hunk s))).
  { intro s. unfold close. destruct (hunk s) as [|e h] eqn:E; [now rewrite app_nil_r|]. change (rev (rev (e :: h) :: hunks s)) with (rev (hunks s) ++ [rev (e :: h)]). f_equal.
    destruct (rev (e :: h)) eqn:R; [|reflexivity]. apply (f_equal (@length _)) in R. rewrite rev_length in R. discriminate. }
  induction sc as [|c sc IH]; intro s; [apply CL|]. unfold run. cbn [fold_left]. fold (run (@e_a A) e_b e_c sc).
  change (fold_left _ sc ?x) with (run (@e_a A) e_b e_c sc x). rewrite IH. destruct c as [e|e|e]; cbn [number together e_a e_b e_c hunks hunk apos bpos rev].
  - reflexivity.
  - reflexivity.
  - rewrite CL, <- app_assoc. reflexivity.
Qed.
Definition somes {B} (l : list (option B)) : list B := flat_map (fun o => match o with Some e => [e] | None => [] end) l.
Lemma concat_together {B} (l : list (option B)) : forall cur, concat (together cur l) = cur ++ somes l.
Proof.
  assert (NE : forall c : list B, concat (nonempty c) = c) by (intros [|x c]; cbn; auto; now rewrite app_nil_r).
  induction l as [|[e|] l IH]; intro cur; cbn [together somes flat_map].
  - rewrite NE. now rewrite app_nil_r.
  - rewrite IH, <- app_assoc. reflexivity.
  - rewrite concat_app, NE, IH. reflexivity.
Qed.
Lemma together_ne {B} (l : list (option B)) : forall cur, ~ In [] (together cur l).
Proof.
  assert (NE : forall c : list B, ~ In [] (nonempty c)) by (intros [|x c]; cbn; [tauto|intros [Q|[]]; discriminate]).
  induction l as [|[e|] l IH]; intro cur; cbn [together]; auto. rewrite in_app_iff. intros [Q|Q]; [eapply NE; eauto|eapply IH; eauto].
Qed.
Lemma edits_nth s a b : turns s a b -> forall i j ed, In ed (somes (number i j s)) ->
  match ed with Rm x e => i <= x /\ nth_error a (Z.to_nat (x - i)) = Some e | Ad y e => j <= y /\ nth_error b (Z.to_nat (y - j)) = Some e end.
Proof.
  assert (TL : forall (l : list A) e0 x i o, i + 1 <= x -> nth_error l (Z.to_nat (x - (i + 1))) = o -> nth_error (e0 :: l) (Z.to_nat (x - i)) = o).
  { intros l e0 x i o L E. replace (Z.to_nat (x - i)) with (S (Z.to_nat (x - (i + 1)))) by lia. exact E. }
  induction 1 as [|e s a b T IH|e s a b T IH|e e' s a b EQ T IH]; intros i j ed J; cbn [number somes flat_map] in J.
  - destruct J.
  - destruct J as [<-|J].
    + split; [lia|]. now rewrite Z.sub_diag.
    + specialize (IH _ _ _ J). destruct ed as [x e1|y e1]; destruct IH as (B & E); split; auto; try lia.
  - destruct J as [<-|J].
    + split; [lia|]. now rewrite Z.sub_diag.
    + specialize (IH _ _ _ J). destruct ed as [x e1|y e1]; destruct IH as (B & E); split; auto; try lia.
  - specialize (IH _ _ _ J). destruct ed as [x e1|y e1]; destruct IH as (B & E); split; auto; try lia.
Qed.
Lemma removed_in es x : In x (@removed A es) <-> exists e, In (Rm x e) es.
Proof.
  unfold removed. rewrite in_flat_map. split.
  - intros ([i e|i e] & J & Q); [destruct Q as [<-|[]]; eauto|destruct Q].
  - intros (e & J). exists (Rm x e). cbn. auto.
Qed.
Lemma added_in es x : In x (@added A es) <-> exists e, In (Ad x e) es.
Proof.
  unfold added. rewrite in_flat_map. split.
  - intros ([i e|i e] & J & Q); [destruct Q|destruct Q as [<-|[]]; eauto].
  - intros (e & J). exists (Ad x e). cbn. auto.
Qed.
Definition others_at (i : nat) (idx : list Z) (l : list A) : list A :=
  map snd (filter (fun p => negb (existsb (Z.eqb (Z.of_nat (fst p))) idx)) (combine (seq i (length l)) l)).
Lemma others_ext i idx idx' l : (forall x, (Z.of_nat i <= x) -> (In x idx <-> In x idx')) -> others_at i idx l = others_at i idx' l.
Proof.
  intro H. unfold others_at. f_equal. apply filter_ext_in. intros (n & e) J. apply in_combine_l in J. apply in_seq in J. cbn [fst]. f_equal.
  apply eq_true_iff_eq. rewrite !existsb_exists. split; intros (x & P & Q); exists x; (split; auto; apply H; auto; apply Z.eqb_eq in Q; lia).
Qed.
Lemma others_cons i idx e l : others_at i idx (e :: l) = (if existsb (Z.eqb (Z.of_nat i)) idx then [] else [e]) ++ others_at (S i) idx l.
Proof. unfold others_at. cbn [length seq combine filter fst]. destruct (existsb _ idx); reflexivity. Qed.
Lemma existsb_in x idx : existsb (Z.eqb x) idx = true <-> In x idx.
Proof. rewrite existsb_exists. split; [intros (y & P & Q); apply Z.eqb_eq in Q; congruence|intro P; exists x; split; auto; apply Z.eqb_refl]. Qed.
Lemma others_rm i idx e l : others_at i (Z.of_nat i :: idx) (e :: l) = others_at (S i) idx l.
Proof.
  rewrite others_cons. replace (existsb (Z.eqb (Z.of_nat i)) (Z.of_nat i :: idx)) with true by (symmetry; apply existsb_in; now left). cbn [app].
  apply others_ext. intros x L. cbn. split; [intros [Q|Q]; [lia|auto]|auto].
Qed.
Lemma others_keep i idx e l : ~ In (Z.of_nat i) idx -> others_at i idx (e :: l) = e :: others_at (S i) idx l.
Proof. intro N. rewrite others_cons. destruct (existsb (Z.eqb (Z.of_nat i)) idx) eqn:E; [apply existsb_in in E; contradiction|reflexivity]. Qed.
Lemma others_turns s a b : turns s a b -> forall i j, 
  Forall2 (fun x y => eq x y = true) (others_at i (removed (somes (number (Z.of_nat i) (Z.of_nat j) s))) a)
    (others_at j (added (somes (number (Z.of_nat i) (Z.of_nat j) s))) b).
Proof.
  induction 1 as [|e s a b T IH|e s a b T IH|e e' s a b EQ T IH]; intros i j; cbn [number].
  - constructor.
  - specialize (IH (S i) j). rewrite Nat2Z.inj_succ in IH. change (Z.succ (Z.of_nat i)) with (Z.of_nat i + 1) in IH.
    cbn [somes flat_map app]. change (removed (Rm (Z.of_nat i) e :: ?x)) with (Z.of_nat i :: removed x). rewrite others_rm.
    change (added (Rm (Z.of_nat i) e :: ?x)) with (added x). exact IH.
  - specialize (IH i (S j)). rewrite Nat2Z.inj_succ in IH. change (Z.succ (Z.of_nat j)) with (Z.of_nat j + 1) in IH.
    cbn [somes flat_map app]. change (added (Ad (Z.of_nat j) e :: ?x)) with (Z.of_nat j :: added x). rewrite others_rm.
    change (removed (Ad (Z.of_nat j) e :: ?x)) with (removed x). exact IH.
  - specialize (IH (S i) (S j)). rewrite !Nat2Z.inj_succ in IH. change (Z.succ (Z.of_nat i)) with (Z.of_nat i + 1) in IH. change (Z.succ (Z.of_nat j)) with (Z.of_nat j + 1) in IH.
    cbn [somes flat_map app]. rewrite !others_keep.
    + constructor; auto.
    + intro J. apply added_in in J. destruct J as (e1 & J). apply (edits_nth _ _ _ T) in J. lia.
    + intro J. apply removed_in in J. destruct J as (e1 & J). apply (edits_nth _ _ _ T) in J. lia.
Qed.
Lemma somes_length s : forall i j, length (somes (@number A i j s)) = changes s.
Proof. unfold changes, somes. induction s as [|[e|e|e] s IH]; intros i j; cbn [number flat_map filter length app]; auto; f_equal; auto. Qed.
(** deleting at given positions leaves a subsequence, long enough *)
Lemma others_len idx l : forall i, (length l <= length (others_at i idx l) + length idx)%nat.
Proof.
  revert idx. induction l as [|e l IH]; intros idx i; [cbn; lia|]. rewrite others_cons. destruct (existsb (Z.eqb (Z.of_nat i)) idx) eqn:E.
  - apply existsb_in in E. cbn [app]. rewrite (others_ext (S i) idx (remove Z.eq_dec (Z.of_nat i) idx)).
    + specialize (IH (remove Z.eq_dec (Z.of_nat i) idx) (S i)). pose proof (remove_length_lt Z.eq_dec idx _ E). cbn [length]. lia.
    + intros x L. split; intro P; [apply in_in_remove; auto; lia|]. apply in_remove in P. tauto.
  - cbn [app length]. specialize (IH idx (S i)). lia.
Qed.
Lemma others_script a b ia ib : Forall2 (fun x y => eq x y = true) (others_at 0 ia a) (others_at 0 ib b) ->
  exists s, turns s a b /\ length (kept s) = length (others_at 0 ia a).
Proof.
  generalize 0%nat at 1 3 as i. generalize 0%nat as j. revert b. induction a as [|e a IH]; intros b j i F.
  - exists (map (@Ins A) b ++ []). split; [|now rewrite kept_ins]. rewrite <- (app_nil_r b) at 2. apply turns_ins. constructor.
  - rewrite others_cons in *. destruct (existsb (Z.eqb (Z.of_nat i)) ia); cbn [app] in *.
    + destruct (IH b j (S i) F) as (s & T & K). exists (Del e :: s). split; [constructor; auto|exact K].
    + revert j F. induction b as [|e' b IHb]; intros j F; [inversion F|]. rewrite others_cons in F.
      destruct (existsb (Z.eqb (Z.of_nat j)) ib); cbn [app] in F.
      * destruct (IHb (S j) F) as (s & T & K). exists (Ins e' :: s). split; [constructor; auto|exact K].
      * inversion F; subst. destruct (IH b (S j) (S i)) as (s & T & K); auto. exists (Keep e :: s). split; [constructor; auto|change (kept (Keep e :: s)) with (e :: kept s); cbn [length]; now rewrite K].
Qed.
Lemma Forall2_len {B C} (R : B -> C -> Prop) l l' : Forall2 R l l' -> length l = length l'.
Proof. induction 1; cbn; auto. Qed.
End L.
