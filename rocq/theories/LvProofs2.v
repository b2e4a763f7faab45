From Coq Require Import List Bool Arith Lia.
From Verif Require Import LvModel LvSpec LvProofs.
Import ListNotations.

Section L.
Context {A : Type}.
Variable elt : A -> A -> bool.
Hypothesis Esym : forall x y, elt x y = true -> elt y x = true.
Hypothesis Etrans : forall x y z, elt x y = true -> elt y z = true -> elt x z = true.
Notation least := (least elt).
Notation edits := (edits elt).
Notation rk := (@inner_swaps A).
Notation rowok := (rowok elt rk).
Definition swc (Aall Ball : list A) i j x b : bool :=
  (1 <? i) && (1 <? j) &&
  match nth_error Ball (j - 1) with Some b' => elt x b' | None => false end &&
  match nth_error Aall (i - 1) with Some x' => elt x' b | None => false end.
Definition cell (Aall Ball : list A) i j x b row2 prev r1 r0 : nat :=
  let d := min3 (prev + 1) (r1 + 1) (r0 + if elt x b then 0 else 1) in
  if swc Aall Ball i j x b then Nat.min d (nth (i - 1) row2 0 + if elt x b then 0 else 1) else d.
Lemma nth_last (l : list A) x r : nth_error ((l ++ [x]) ++ r) (length (l ++ [x]) - 1) = Some x.
Proof.
  rewrite app_length. cbn [length]. replace (length l + 1 - 1) with (length l) by lia. rewrite <- app_assoc, nth_error_app2, Nat.sub_diag by lia. reflexivity.
Qed.
Lemma cell_least pa x a pb b rest row2 prev r1 r0 :
  least rk pa (pb ++ [b]) prev -> least rk (pa ++ [x]) pb r1 -> least rk pa pb r0 ->
  (forall pb0 y, pb = pb0 ++ [y] -> rowok [] (pa ++ x :: a) pb0 row2) ->
  least rk (pa ++ [x]) (pb ++ [b]) (cell (pa ++ x :: a) (pb ++ b :: rest) (length pa) (length pb) x b row2 prev r1 r0).
Proof.
  intros P R1 R0 R2. unfold cell. set (d := min3 _ _ _).
  assert (W : forall pa0 x' pb0 y, pa = pa0 ++ [x'] -> pb = pb0 ++ [y] -> least rk pa0 pb0 (nth (length pa - 1) row2 0)).
  { intros pa0 x' pb0 y -> E. specialize (R2 pb0 y E). rewrite app_length. cbn [length]. replace (length pa0 + 1 - 1) with (length pa0) by lia.
    assert (LE : length pa0 <= length ((pa0 ++ [x']) ++ x :: a)) by (rewrite !app_length; lia).
    pose proof (rowok_nth elt rk _ [] pb0 row2 (length pa0) R2 LE) as Q. cbn [app] in Q.
    rewrite <- app_assoc, firstn_app, firstn_all, Nat.sub_diag in Q. cbn [firstn] in Q. now rewrite app_nil_r in Q. }
  assert (SC : forall pa0 x' pb0 y, pa = pa0 ++ [x'] -> pb = pb0 ++ [y] ->
    swc (pa ++ x :: a) (pb ++ b :: rest) (length pa) (length pb) x b = (1 <? length pa) && (1 <? length pb) && elt x y && elt x' b).
  { intros pa0 x' pb0 y -> ->. unfold swc. rewrite !nth_last. reflexivity. }
  destruct (swc (pa ++ x :: a) (pb ++ b :: rest) (length pa) (length pb) x b) eqn:C.
  - assert (C' := C). unfold swc in C'. apply andb_prop in C'. destruct C' as (C' & _). apply andb_prop in C'. destruct C' as (C' & _).
    apply andb_prop in C'. destruct C' as (I & J). apply Nat.ltb_lt in I, J.
    destruct pa as [|x' pa0 _] using rev_ind; [cbn in I; lia|]. destruct pb as [|y pb0 _] using rev_ind; [cbn in J; lia|].
    specialize (W pa0 x' pb0 y eq_refl eq_refl). specialize (SC pa0 x' pb0 y eq_refl eq_refl).
    set (w := nth (length (pa0 ++ [x']) - 1) row2 0) in *.
    symmetry in SC. apply andb_prop in SC. destruct SC as (SC & X1). apply andb_prop in SC. destruct SC as (_ & X2).
    destruct W as ((s2 & K2 & E2 & C2) & M2). split.
    + destruct (Nat.le_gt_cases d (w + if elt x b then 0 else 1)) as [G|G].
      * rewrite Nat.min_l by exact G. eapply step_ex; eauto using kind_inner.
      * rewrite Nat.min_r by lia. destruct (elt x b) eqn:Q.
        -- exists ((s2 ++ [Same x' y]) ++ [Same x b]). split; [apply (k_snoc _ kind_inner); [apply (k_snoc _ kind_inner)|]; auto; discriminate|].
           split; [|rewrite !cost_snoc, C2; cbn; lia]. apply (edits_snoc _ _ (Same x b) _ _); [|exact Q].
           apply (edits_snoc _ _ (Same x' y) _ _ E2). cbn. eauto.
        -- exists (s2 ++ [Swap x' x y b]). rewrite app_length in I, J. cbn [length] in I, J. split.
           ++ destruct E2 as (_ & L2 & R3). apply inner_snoc; auto; [rewrite L2|rewrite R3]; [destruct pa0|destruct pb0]; try discriminate; cbn in I, J; lia.
           ++ split; [|rewrite cost_snoc, C2; reflexivity]. rewrite <- !app_assoc. apply (edits_snoc _ _ (Swap x' x y b) _ _ E2). cbn. auto.
    + intros s KS ES. destruct (step_le elt rk kind_inner _ _ _ _ _ _ _ s P R1 R0 KS ES) as [Q|(s0 & x1 & y1 & -> & pa1 & pb1 & EA & EB & E0 & _)]; [fold d in Q; lia|].
      apply app_inj_tail in EA, EB. destruct EA as (<- & <-), EB as (<- & <-). rewrite cost_snoc. specialize (M2 s0 (k_pre _ kind_inner _ _ KS) E0).
      cbn [cost1]. destruct (elt x b); lia.
  - split; [eapply step_ex; eauto using kind_inner|]. intros s KS ES.
    destruct (step_le elt rk kind_inner _ _ _ _ _ _ _ s P R1 R0 KS ES) as [Q|(s0 & x1 & y1 & -> & pa1 & pb1 & EA & EB & E0 & X1 & X2)]; [exact Q|].
    exfalso. specialize (SC pa1 x1 pb1 y1 EA EB). rewrite X1, X2, !andb_true_r in SC. symmetry in SC. clear C. rename SC into C. destruct (KS s0 x1 x y1 b [] eq_refl) as (N1 & N2).
    destruct E0 as (_ & L0 & R3). rewrite L0 in N1. rewrite R3 in N2. subst pa pb. rewrite !app_length in C. cbn [length] in C.
    destruct pa1, pb1; try congruence. cbn [length] in C. apply andb_false_iff in C. destruct C as [C|C]; apply Nat.ltb_ge in C; lia.
Qed.
Lemma re_row_spec pb b rest row2 a : forall Aall pa row1 prev dmin, Aall = pa ++ a -> rowok pa a pb row1 -> least rk pa (pb ++ [b]) prev ->
  (forall pb0 y, pb = pb0 ++ [y] -> rowok [] Aall pb0 row2) ->
  rowok pa a (pb ++ [b]) (prev :: fst (re_row elt Aall (pb ++ b :: rest) (length pa) (length pb) a b row2 row1 prev dmin)) /\
  snd (re_row elt Aall (pb ++ b :: rest) (length pa) (length pb) a b row2 row1 prev dmin) =
    lmin dmin (fst (re_row elt Aall (pb ++ b :: rest) (length pa) (length pb) a b row2 row1 prev dmin)).
Proof.
  induction a as [|x a IH]; intros Aall pa row1 prev dmin E R P R2; [cbn; auto|].
  destruct row1 as [|r0 row1]; [destruct R|]. destruct R as (R0 & R). destruct (rowok_head _ _ _ _ _ _ R) as (r1 & row' & -> & R1).
  cbn [re_row]. fold (swc Aall (pb ++ b :: rest) (length pa) (length pb) x b).
  set (d := min3 _ _ _). fold (cell Aall (pb ++ b :: rest) (length pa) (length pb) x b row2 prev r1 r0) in *.
  change (if swc Aall (pb ++ b :: rest) (length pa) (length pb) x b then Nat.min d (nth (length pa - 1) row2 0 + (if elt x b then 0 else 1)) else d)
    with (cell Aall (pb ++ b :: rest) (length pa) (length pb) x b row2 prev r1 r0). clear d.
  set (d := cell _ _ _ _ _ _ _ _ _ _).
  assert (D : least rk (pa ++ [x]) (pb ++ [b]) d).
  { unfold d. subst Aall. apply cell_least; auto. }
  clearbody d. specialize (IH Aall (pa ++ [x]) (r1 :: row') d (if d <? dmin then d else dmin)).
  rewrite app_length in IH. cbn [length] in IH. specialize (IH ltac:(now rewrite <- app_assoc) R D R2).
  destruct (re_row elt Aall (pb ++ b :: rest) (length pa + 1) (length pb) a b row2 (r1 :: row') d (if d <? dmin then d else dmin)) as (l & m). cbn [fst snd] in *. destruct IH as (I1 & I2).
  split; [split; auto|]. rewrite I2. change (lmin dmin (d :: l)) with (lmin (Nat.min dmin d) l). f_equal. destruct (Nat.ltb_spec d dmin); lia.
Qed.
Lemma first_least (pb : list A) b : least rk [] (pb ++ [b]) (length pb + 1).
Proof.
  replace (length pb + 1) with (length (pb ++ [b])) by (rewrite app_length; reflexivity). apply least_right, kind_inner.
Qed.
Lemma re_loop_spec a cutoff B : forall pb row2 row1 dmin1 n, rowok [] a pb row1 -> (forall pb0 y, pb = pb0 ++ [y] -> rowok [] a pb0 row2) ->
  (forall x, In x row1 -> dmin1 <= x) -> least rk a (pb ++ B) n ->
  finish cutoff (length a) (re_loop elt a (pb ++ B) cutoff B (length pb) row2 row1 dmin1) = cut cutoff n.
Proof.
  induction B as [|b B IH]; intros pb row2 row1 dmin1 n R R2 DM (LE & LM); cbn [re_loop].
  - rewrite app_nil_r in *. cbn [finish]. rewrite over_cut. f_equal.
    destruct (rowok_nth elt rk a [] pb row1 (length a) R (le_n _)) as (E2 & M2). rewrite firstn_all in *. cbn [app] in *.
    destruct LE as (s1 & K1 & S1 & C1), E2 as (s2 & K2 & S2 & C2). specialize (LM s2 K2 S2). specialize (M2 s1 K1 S1). lia.
  - pose proof (first_least pb b) as P.
    destruct (re_row_spec pb b B row2 a a [] row1 (length pb + 1) (length pb + 1) eq_refl R P R2) as (R' & M'). cbn [length] in *.
    destruct (re_row elt a (pb ++ b :: B) 0 (length pb) a b row2 row1 (length pb + 1) (length pb + 1)) as (l & m). cbn [fst snd] in *.
    destruct (lmin_le l (length pb + 1)) as (L1 & L2). rewrite <- M' in L1, L2.
    assert (LB : forall x, In x (length pb + 1 :: l) -> m <= x) by (intros x [<-|J]; auto).
    replace (pb ++ b :: B) with ((pb ++ [b]) ++ B) in * by now rewrite <- app_assoc.
    destruct (over cutoff (Nat.min m dmin1)) eqn:O.
    + cbn [finish]. destruct cutoff as [c|]; [|discriminate]. cbn [over] in O. apply Nat.ltb_lt in O. cbn [cut]. destruct (Nat.leb_spec n c) as [C|]; auto. exfalso.
      destruct LE as (s & KS & ES & <-). destruct (row_bound elt rk kind_inner a (pb ++ [b]) B _ s R' KS ES) as [(x & J & X)|(pb0 & y & E & G & _)].
      * specialize (LB x J). lia.
      * apply app_inj_tail in E. destruct E as (<- & <-). destruct (G row1 R) as (x & J & X). specialize (DM x J). lia.
    + specialize (IH (pb ++ [b]) row1 (length pb + 1 :: l) m n R'). rewrite app_length in IH. apply IH; auto; [|split; auto].
      intros pb0 y E. apply app_inj_tail in E. destruct E as (<- & _). exact R.
Qed.
Lemma re_distance_spec a B cutoff : exists n, least rk a B n /\ re_distance elt a B cutoff = cut cutoff n.
Proof.
  assert (EX : exists n, least rk a B n).
  { assert (G : forall B pb row2 row, rowok [] a pb row -> (forall pb0 y, pb = pb0 ++ [y] -> rowok [] a pb0 row2) -> exists row', rowok [] a (pb ++ B) row').
    { induction B0 as [|b B0 IH]; intros pb row2 row R R2; [exists row; now rewrite app_nil_r|].
      destruct (re_row_spec pb b B0 row2 a a [] row _ 0 eq_refl R (first_least pb b) R2) as (R' & _).
      destruct (IH _ row _ R') as (row' & Q); [|exists row'; now rewrite <- app_assoc in Q].
      intros pb0 y E. apply app_inj_tail in E. destruct E as (<- & _). exact R. }
    destruct (G B [] [] _ (row0 elt rk kind_inner a [])) as (row' & Q); [intros pb0 y E; destruct pb0; discriminate|]. exists (nth (length a) row' 0).
    pose proof (rowok_nth elt rk a [] B row' (length a) Q (le_n _)) as X. now rewrite firstn_all in X. }
  destruct EX as (n & L). exists n. split; auto. apply (re_loop_spec a cutoff B [] _ _ 0 n (row0 elt rk kind_inner a [])); auto; [|lia].
  intros pb0 y E. destruct pb0; discriminate.
Qed.
End L.
