From Coq Require Import List Bool Arith Lia.
From Verif Require Import LvModel LvSpec.
Import ListNotations.

Section L.
Context {A : Type}.
Variable elt : A -> A -> bool.
Notation least := (least elt).
Notation edits := (edits elt).
Lemma lhs_app (s t : list (op A)) : lhs (s ++ t) = lhs s ++ lhs t. Proof. apply flat_map_app. Qed.
Lemma rhs_app (s t : list (op A)) : rhs (s ++ t) = rhs s ++ rhs t. Proof. apply flat_map_app. Qed.
Lemma cost_app (s t : list (op A)) : cost (s ++ t) = cost s + cost t.
Proof. unfold cost. rewrite map_app. apply list_sum_app. Qed.
Lemma cost_snoc (s : list (op A)) o : cost (s ++ [o]) = cost s + cost1 o.
Proof. rewrite cost_app. unfold cost. cbn. lia. Qed.
Lemma edits_snoc s o a b : edits s a b -> ok elt o -> edits (s ++ [o]) (a ++ lhs1 o) (b ++ rhs1 o).
Proof.
  intros (F & L & R) O. split; [apply Forall_app; auto|]. rewrite lhs_app, rhs_app, L, R. unfold lhs, rhs. cbn. rewrite !app_nil_r. auto.
Qed.
Lemma edits_unsnoc s o a b : edits (s ++ [o]) a b -> ok elt o /\ exists a0 b0, edits s a0 b0 /\ a = a0 ++ lhs1 o /\ b = b0 ++ rhs1 o.
Proof.
  intros (F & L & R). apply Forall_app in F. destruct F as (F & G). inversion G; subst. split; auto. exists (lhs s), (rhs s).
  split; [split; auto|]. rewrite lhs_app, rhs_app. unfold lhs at 2, rhs at 2. cbn. now rewrite !app_nil_r.
Qed.
(** kinds of scripts *)
Record kind_ok (kind : list (op A) -> Prop) : Prop := {
  k_nil : kind [];
  k_snoc : forall s o, kind s -> (forall x x' y y', o <> Swap x x' y y') -> kind (s ++ [o]);
  k_pre : forall s t, kind (s ++ t) -> kind s }.
Section K.
Variable kind : list (op A) -> Prop.
Hypothesis K : kind_ok kind.
Lemma least_left a : least kind a [] (length a).
Proof.
  split.
  - exists (map (@Del A) a). assert (G : kind (map (@Del A) a) /\ edits (map (@Del A) a) a [] /\ cost (map (@Del A) a) = length a); auto.
    induction a as [|x a IH] using rev_ind; [repeat split; auto; [apply (k_nil _ K)|constructor]|].
    rewrite map_app. cbn [map]. destruct IH as (I1 & I2 & I3). split; [apply (k_snoc _ K); auto; discriminate|]. split.
    + change (a ++ [x]) with (a ++ lhs1 (Del x)). change (@nil A) with ([] ++ rhs1 (Del x)). apply edits_snoc; cbn; auto.
    + rewrite cost_snoc, I3, app_length. reflexivity.
  - intros s _ (F & L & R). subst a. clear K. induction s as [|o s IH]; [cbn; lia|]. inversion F; subst. cbn [rhs flat_map] in R. apply app_eq_nil in R.
    destruct R as (R1 & R2). specialize (IH H2 R2). change (lhs (o :: s)) with (lhs1 o ++ lhs s). change (cost (o :: s)) with (cost1 o + cost s). rewrite app_length.
    destruct o; try discriminate; cbn [lhs1 rhs1 cost1 length] in *; lia.
Qed.
Lemma least_right b : least kind [] b (length b).
Proof.
  split.
  - exists (map (@Ins A) b). assert (G : kind (map (@Ins A) b) /\ edits (map (@Ins A) b) [] b /\ cost (map (@Ins A) b) = length b); auto.
    induction b as [|x a IH] using rev_ind; [repeat split; auto; [apply (k_nil _ K)|constructor]|].
    rewrite map_app. cbn [map]. destruct IH as (I1 & I2 & I3). split; [apply (k_snoc _ K); auto; discriminate|]. split.
    + change (a ++ [x]) with (a ++ rhs1 (Ins x)). change (@nil A) with ([] ++ lhs1 (Ins x)). apply edits_snoc; cbn; auto.
    + rewrite cost_snoc, I3, app_length. reflexivity.
  - intros s _ (F & L & R). subst b. clear K. induction s as [|o s IH]; [cbn; lia|]. inversion F; subst. cbn [lhs flat_map] in L. apply app_eq_nil in L.
    destruct L as (R1 & R2). specialize (IH H2 R2). change (rhs (o :: s)) with (rhs1 o ++ rhs s). change (cost (o :: s)) with (cost1 o + cost s). rewrite app_length.
    destruct o; try discriminate; cbn [lhs1 rhs1 cost1 length] in *; lia.
Qed.
(** the step of dynamic programming; sw is the least cost with a swap at the end, if any *)
Lemma step_ex pa pb x b p q r : least kind pa (pb ++ [b]) p -> least kind (pa ++ [x]) pb q -> least kind pa pb r ->
  exists s, kind s /\ edits s (pa ++ [x]) (pb ++ [b]) /\ cost s = min3 (p + 1) (q + 1) (r + if elt x b then 0 else 1).
Proof.
  intros ((s1 & K1 & E1 & C1) & _) ((s2 & K2 & E2 & C2) & _) ((s3 & K3 & E3 & C3) & _).
  assert (O : min3 (p + 1) (q + 1) (r + if elt x b then 0 else 1) = p + 1 \/ min3 (p + 1) (q + 1) (r + if elt x b then 0 else 1) = q + 1 \/
    min3 (p + 1) (q + 1) (r + if elt x b then 0 else 1) = r + if elt x b then 0 else 1) by (unfold min3; lia).
  destruct O as [-> |[-> | ->]].
  - exists (s1 ++ [Del x]). split; [apply (k_snoc _ K); auto; discriminate|]. split; [|rewrite cost_snoc, C1; reflexivity].
    pose proof (edits_snoc _ (Del x) _ _ E1 I) as E. cbn in E. now rewrite app_nil_r in E.
  - exists (s2 ++ [Ins b]). split; [apply (k_snoc _ K); auto; discriminate|]. split; [|rewrite cost_snoc, C2; reflexivity].
    pose proof (edits_snoc _ (Ins b) _ _ E2 I) as E. cbn in E. now rewrite app_nil_r in E.
  - destruct (elt x b) eqn:Q.
    + exists (s3 ++ [Same x b]). split; [apply (k_snoc _ K); auto; discriminate|]. split; [|rewrite cost_snoc, C3; reflexivity].
      apply (edits_snoc _ (Same x b) _ _ E3 Q).
    + exists (s3 ++ [Sub x b]). split; [apply (k_snoc _ K); auto; discriminate|]. split; [|rewrite cost_snoc, C3; reflexivity].
      apply (edits_snoc _ (Sub x b) _ _ E3 I).
Qed.
Lemma step_le pa pb x b p q r s : least kind pa (pb ++ [b]) p -> least kind (pa ++ [x]) pb q -> least kind pa pb r ->
  kind s -> edits s (pa ++ [x]) (pb ++ [b]) ->
  min3 (p + 1) (q + 1) (r + if elt x b then 0 else 1) <= cost s \/
  exists s0 x' y, s = s0 ++ [Swap x' x y b] /\ exists pa0 pb0, pa = pa0 ++ [x'] /\ pb = pb0 ++ [y] /\ edits s0 pa0 pb0 /\ elt x y = true /\ elt x' b = true.
Proof.
  intros (_ & M1) (_ & M2) (_ & M3) KS ES. destruct s as [|o s _] using rev_ind.
  - destruct ES as (_ & E & _). destruct pa; discriminate.
  - apply edits_unsnoc in ES. destruct ES as (O & a0 & b0 & E & Ea & Eb). apply (k_pre _ K) in KS. rewrite cost_snoc.
    destruct o as [u|v|u v|u v|u u' v v']; cbn [lhs1 rhs1 cost1] in *; rewrite ?app_nil_r in *.
    + apply app_inj_tail in Ea. destruct Ea as (<- & <-). subst b0. left. specialize (M1 s KS E). unfold min3. lia.
    + apply app_inj_tail in Eb. destruct Eb as (<- & <-). subst a0. left. specialize (M2 s KS E). unfold min3. lia.
    + apply app_inj_tail in Ea, Eb. destruct Ea as (<- & <-), Eb as (<- & <-). left. specialize (M3 s KS E). unfold min3. destruct (elt x b); lia.
    + apply app_inj_tail in Ea, Eb. destruct Ea as (<- & <-), Eb as (<- & <-). left. specialize (M3 s KS E). cbn in O. rewrite O. unfold min3. lia.
    + right. change [u; u'] with ([u] ++ [u']) in Ea. change [v; v'] with ([v] ++ [v']) in Eb. rewrite app_assoc in Ea, Eb.
      apply app_inj_tail in Ea, Eb. destruct Ea as (-> & ->), Eb as (-> & ->). destruct O as (O1 & O2). exists s, u, v. split; auto.
      exists a0, b0. auto.
Qed.
(** rows *)
Fixpoint rowok (pa a pb : list A) (row : list nat) : Prop :=
  match a, row with
  | [], [r] => least kind pa pb r
  | x :: a', r :: row' => least kind pa pb r /\ rowok (pa ++ [x]) a' pb row'
  | _, _ => False
  end.
Lemma row0 a : forall pa, rowok pa a [] (seq (length pa) (length a + 1)).
Proof.
  induction a as [|x a IH]; intro pa; cbn [length Nat.add seq rowok]; [apply least_left|]. split; [apply least_left|].
  specialize (IH (pa ++ [x])). rewrite app_length, Nat.add_comm in IH. exact IH.
Qed.
Lemma rowok_nth a : forall pa pb row k, rowok pa a pb row -> k <= length a -> least kind (pa ++ firstn k a) pb (nth k row 0).
Proof.
  induction a as [|x a IH]; intros pa pb row k R L; destruct row as [|r row]; cbn [rowok] in R; try destruct R.
  - cbn in L. assert (k = 0) as -> by lia. destruct row; [|destruct R]. cbn. now rewrite app_nil_r.
  - destruct k as [|k]; cbn; [now rewrite app_nil_r|]. cbn in L. specialize (IH (pa ++ [x]) pb row k H0 ltac:(lia)). now rewrite <- app_assoc in IH.
Qed.
Lemma rowok_head a pa pb row : rowok pa a pb row -> exists r row', row = r :: row' /\ least kind pa pb r.
Proof. destruct a, row as [|r row]; cbn; try tauto; [destruct row; [|tauto]|]; intros; exists r; eexists; split; eauto. tauto. Qed.
Lemma rowok_len a : forall pa pb row, rowok pa a pb row -> length row = length a + 1.
Proof.
  induction a as [|x a IH]; intros pa pb row R; destruct row as [|r row]; cbn [rowok] in R; try destruct R.
  - destruct row; [reflexivity|destruct R].
  - cbn. f_equal. eapply IH; eauto.
Qed.
Definition lmin (m : nat) (l : list nat) := fold_left Nat.min l m.
Lemma lmin_le l : forall m, lmin m l <= m /\ forall x, In x l -> lmin m l <= x.
Proof.
  unfold lmin. induction l as [|y l IH]; intro m; cbn; [split; [auto|intros x []]|]. destruct (IH (Nat.min m y)) as (I1 & I2). split; [lia|].
  intros x [<-|J]; auto. lia.
Qed.
(** the first part of a script *)
Lemma split_script (s : list (op A)) : forall pb rest, rhs s = pb ++ rest -> exists s1 s2, s = s1 ++ s2 /\
  (rhs s1 = pb \/ ((exists y, rhs s1 ++ [y] = pb) /\ exists u u' v v', In (Swap u u' v v') s)).
Proof.
  induction s as [|o s IH] using rev_ind; intros pb rest R.
  - exists [], []. split; auto. left. symmetry in R. apply app_eq_nil in R. symmetry. apply R.
  - rewrite rhs_app in R. unfold rhs at 2 in R. cbn [flat_map] in R. rewrite app_nil_r in R.
    assert (IHR : forall r, rhs s = pb ++ r -> exists s1 s2, s ++ [o] = s1 ++ s2 /\
      (rhs s1 = pb \/ ((exists y, rhs s1 ++ [y] = pb) /\ exists u u' v v', In (Swap u u' v v') (s ++ [o])))).
    { intros r Q. destruct (IH pb r Q) as (s1 & s2 & E & C). exists s1, (s2 ++ [o]). split; [rewrite E, app_assoc; auto|].
      destruct C as [C|(C1 & u & u' & v & v' & C2)]; auto. right. split; auto. exists u, u', v, v'. apply in_app_iff. auto. }
    destruct rest as [|y rest _] using rev_ind.
    + exists (s ++ [o]), []. split; [now rewrite app_nil_r|]. left. rewrite rhs_app. unfold rhs at 2. cbn [flat_map]. now rewrite !app_nil_r in *.
    + destruct o as [u|v|u v|u v|u u' v v']; cbn [rhs1] in R; rewrite ?app_nil_r in R.
      * eapply IHR; eauto.
      * rewrite app_assoc in R. apply app_inj_tail in R. destruct R as (R & _). eapply IHR; eauto.
      * rewrite app_assoc in R. apply app_inj_tail in R. destruct R as (R & _). eapply IHR; eauto.
      * rewrite app_assoc in R. apply app_inj_tail in R. destruct R as (R & _). eapply IHR; eauto.
      * change [v; v'] with ([v] ++ [v']) in R. rewrite !app_assoc in R. apply app_inj_tail in R. destruct R as (R & _).
        destruct rest as [|z rest _] using rev_ind.
        -- exists s, [Swap u u' v v']. split; auto. right. rewrite app_nil_r in R. split; [exists v; auto|]. exists u, u', v, v'. apply in_app_iff. cbn. auto.
        -- rewrite app_assoc in R. apply app_inj_tail in R. destruct R as (R & _). eapply IHR; eauto.
Qed.
(** a script for the whole costs at least the least entry of a row *)
Lemma row_bound (a pb rest : list A) row (s : list (op A)) : rowok [] a pb row -> kind s -> edits s a (pb ++ rest) ->
  (exists x, In x row /\ x <= cost s) \/
  exists pb0 y, pb = pb0 ++ [y] /\ (forall row0, rowok [] a pb0 row0 -> exists x, In x row0 /\ x <= cost s) /\ exists u u' v v', In (Swap u u' v v') s.
Proof.
  intros R KS (F & L & Q). destruct (split_script s pb rest Q) as (s1 & s2 & -> & C).
  assert (G : forall pb0 row0, rhs s1 = pb0 -> rowok [] a pb0 row0 -> exists x, In x row0 /\ x <= cost (s1 ++ s2)).
  { intros pb0 row1 E R1. rewrite lhs_app in L. set (k := length (lhs s1)).
    assert (KL : k <= length a) by (rewrite <- L, app_length; unfold k; lia).
    assert (FK : firstn k a = lhs s1) by (rewrite <- L; unfold k; rewrite firstn_app, firstn_all, Nat.sub_diag; cbn; apply app_nil_r).
    pose proof (rowok_nth a [] pb0 row1 k R1 KL) as (_ & M). cbn [app] in M. rewrite FK in M. exists (nth k row1 0). split.
    - apply nth_In. rewrite (rowok_len _ _ _ _ R1). lia.
    - rewrite cost_app. assert (nth k row1 0 <= cost s1); [|lia]. apply M; [eapply (k_pre _ K); eauto|].
      apply Forall_app in F. split; [tauto|]. auto. }
  destruct C as [C|((y & C) & SW)]; [left; eapply G; eauto|]. right. exists (rhs s1), y. split; [auto|]. split; [intros q Q2; eapply G; eauto|exact SW].
Qed.
End K.
(** the kinds *)
Lemma kind_no_swap : kind_ok (@no_swap A).
Proof.
  split.
  - intros x x' y y' [].
  - intros s o H N x x' y y' J. apply in_app_iff in J. destruct J as [J|[J|[]]]; [eapply H; eauto|eapply N; eauto].
  - intros s t H x x' y y' J. eapply H. apply in_app_iff. eauto.
Qed.
Lemma snoc_split {B} (s : list B) o s1 p s2 : s ++ [o] = s1 ++ p :: s2 -> (s2 = [] /\ s1 = s /\ p = o) \/ exists s2', s2 = s2' ++ [o] /\ s = s1 ++ p :: s2'.
Proof.
  destruct s2 as [|q s2 _] using rev_ind; intro E.
  - apply app_inj_tail in E. destruct E; subst. auto.
  - right. rewrite app_comm_cons, app_assoc in E. apply app_inj_tail in E. destruct E; subst. exists s2. auto.
Qed.
Lemma kind_inner : kind_ok (@inner_swaps A).
Proof.
  split.
  - intros s1 x x' y y' s2 E. destruct s1; discriminate.
  - intros s o H N s1 x x' y y' s2 E. apply snoc_split in E. destruct E as [(_ & _ & E)|(s2' & _ & E)]; [exfalso; eapply N; eauto|eapply H; eauto].
  - intros s t H s1 x x' y y' s2 E. eapply (H s1 x x' y y' (s2 ++ t)). rewrite E, <- app_assoc. reflexivity.
Qed.
Lemma inner_snoc s x x' y y' : @inner_swaps A s -> lhs s <> [] -> rhs s <> [] -> inner_swaps (s ++ [Swap x x' y y']).
Proof.
  intros H L R s1 u u' v v' s2 E. apply snoc_split in E. destruct E as [(_ & -> & _)|(s2' & _ & E)]; [auto|eapply H; eauto].
Qed.
(** Levenshtein *)
Notation lk := (@no_swap A).
Lemma l_row_spec a b pb : forall pa row1 prev dmin, rowok lk pa a pb row1 -> least lk pa (pb ++ [b]) prev ->
  rowok lk pa a (pb ++ [b]) (prev :: fst (l_row elt a b row1 prev dmin)) /\ snd (l_row elt a b row1 prev dmin) = lmin dmin (fst (l_row elt a b row1 prev dmin)).
Proof.
  induction a as [|x a IH]; intros pa row1 prev dmin R P; [cbn; auto|].
  destruct row1 as [|r0 row1]; [destruct R|]. destruct R as (R0 & R). destruct (rowok_head _ _ _ _ _ R) as (r1 & row' & -> & R1).
  cbn [l_row]. set (d := min3 _ _ _).
  assert (D : least lk (pa ++ [x]) (pb ++ [b]) d).
  { split; [eapply step_ex; eauto using kind_no_swap|]. intros s KS ES.
    destruct (step_le lk kind_no_swap _ _ _ _ _ _ _ s P R1 R0 KS ES) as [Q|(s0 & x' & y & -> & _)]; auto. exfalso. eapply KS. apply in_app_iff. right. now left. }
  specialize (IH (pa ++ [x]) (r1 :: row') d (if d <? dmin then d else dmin) R D).
  destruct (l_row elt a b (r1 :: row') d (if d <? dmin then d else dmin)) as (l & m). cbn [fst snd] in *. destruct IH as (I1 & I2).
  split; [split; auto|]. rewrite I2. change (lmin dmin (d :: l)) with (lmin (Nat.min dmin d) l). f_equal. clearbody d. destruct (Nat.ltb_spec d dmin); lia.
Qed.
Lemma over_cut cutoff n : (if over cutoff n then None else Some n) = cut cutoff n.
Proof. destruct cutoff as [c|]; unfold over, cut; auto. destruct (Nat.ltb_spec c n), (Nat.leb_spec n c); auto; lia. Qed.
Lemma l_loop_spec a cutoff B : forall pb row n, rowok lk [] a pb row -> least lk a (pb ++ B) n ->
  finish cutoff (length a) (l_loop elt a cutoff B (length pb) row) = cut cutoff n.
Proof.
  induction B as [|b B IH]; intros pb row n R (LE & LM); cbn [l_loop].
  - rewrite app_nil_r in *. cbn [finish]. rewrite over_cut. f_equal.
    destruct (rowok_nth lk a [] pb row (length a) R (le_n _)) as (E2 & M2). rewrite firstn_all in *. cbn [app] in *.
    destruct LE as (s1 & K1 & S1 & C1), E2 as (s2 & K2 & S2 & C2). specialize (LM s2 K2 S2). specialize (M2 s1 K1 S1). lia.
  - assert (P : least lk [] (pb ++ [b]) (length pb + 1)).
    { replace (length pb + 1) with (length (pb ++ [b])) by (rewrite app_length; reflexivity). apply least_right, kind_no_swap. }
    destruct (l_row_spec a b pb [] row (length pb + 1) (length pb + 1) R P) as (R' & M').
    destruct (l_row elt a b row (length pb + 1) (length pb + 1)) as (l & m). cbn [fst snd] in *.
    replace (pb ++ b :: B) with ((pb ++ [b]) ++ B) in * by now rewrite <- app_assoc.
    destruct (over cutoff m) eqn:O.
    + cbn [finish]. destruct cutoff as [c|]; [|discriminate]. cbn in O |- *. apply Nat.ltb_lt in O. destruct (Nat.leb_spec n c) as [C|]; auto. exfalso.
      destruct LE as (s & KS & ES & <-). destruct (row_bound lk kind_no_swap a (pb ++ [b]) B _ s R' KS ES) as [(x & J & X)|(_ & _ & _ & _ & u & u' & v & v' & J)]; [|eapply KS; eauto].
      destruct (lmin_le l (length pb + 1)) as (L1 & L2). destruct J as [<-|J]; [lia|]. specialize (L2 x J). lia.
    + specialize (IH (pb ++ [b]) (length pb + 1 :: l) n R'). rewrite app_length in IH. apply IH. split; auto.
Qed.
Lemma l_distance_spec a B cutoff : exists n, least lk a B n /\ l_distance elt a B cutoff = cut cutoff n.
Proof.
  (* the least exists: the value without cutoff *)
  assert (EX : exists n, least lk a B n).
  { assert (G : forall B pb row, rowok lk [] a pb row -> exists row', rowok lk [] a (pb ++ B) row').
    { induction B0 as [|b B0 IH]; intros pb row R; [exists row; now rewrite app_nil_r|].
      assert (P : least lk [] (pb ++ [b]) (length pb + 1)).
      { replace (length pb + 1) with (length (pb ++ [b])) by (rewrite app_length; reflexivity). apply least_right, kind_no_swap. }
      destruct (l_row_spec a b pb [] row _ 0 R P) as (R' & _). destruct (IH _ _ R') as (row' & Q). exists row'. now rewrite <- app_assoc in Q. }
    destruct (G B [] _ (row0 lk kind_no_swap a [])) as (row' & Q). exists (nth (length a) row' 0).
    pose proof (rowok_nth lk a [] B row' (length a) Q (le_n _)) as X. now rewrite firstn_all in X. }
  destruct EX as (n & L). exists n. split; auto. apply (l_loop_spec a cutoff B [] _ n (row0 lk kind_no_swap a []) L).
Qed.
End L.
