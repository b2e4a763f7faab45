(** C56: generic functions call the applicable methods, the most specific first; the dispatch table. *)
From Coq Require Import List Bool Arith ZArith Lia.
From Verif Require Import GfModel GfSpec GfProofs GfProofs2 GfProofs3 GfProofs4.
Import ListNotations.

(** Without a dispatch table, after any history of additions and deletions, a call runs exactly the applicable
    methods that the history leaves, in the order of specificity; with apply when the arguments given one by one
    are not exactly as many as the largest number of required arguments. *)
Theorem gf_call cpl ops : cpl_ok cpl -> Forall (fun o => wf_method (opm o)) ops ->
  (forall a b, In a (map opm ops) -> In b (map opm ops) -> mid a = mid b -> a = b) ->
  exists g, runops ops new_gf = Some g /\
    forall argv rest lc, rest = None \/ length argv <> maxreq g ->
    exists l, call cpl g argv rest lc = Some l /\
      NoDup l /\
      (forall m, In m l <-> live (rev ops) m /\ plc m = false /\ applicable cpl m (args_of argv rest)) /\
      (forall i j a b, i < j -> nth_error l i = Some a -> nth_error l j = Some b -> before cpl (args_of argv rest) a b).
Proof.
  intros OK WU MU. destruct (ginv_run (map opm ops) ops) with (done := @nil op) (g := new_gf) as (g & E & G); auto.
  { rewrite Forall_forall in *. intros m I. apply in_map_iff in I. destruct I as (o & <- & I). auto. }
  { apply incl_refl. }
  { apply ginv_new. }
  rewrite app_nil_r in G. exists g. split; auto. intros argv rest lc R. destruct G as [WF LV MR D _].
  destruct (call_plain cpl OK g argv rest lc) as (l & C & L); auto. exists l. split; auto.
  apply (calls_of_lt cpl) in L; auto. destruct L as (L1 & L2 & L3). split; auto. split; auto.
  intro m. rewrite L1, LV. tauto.
Qed.
(** With a table on the first argument, built from any methods and kept while methods of new signatures are added:
    building and adding succeed, and in the safe cases a call shows the same methods. *)
Theorem gf_dispatch_partial cpl g0 ms : cpl_ok cpl -> disp g0 = None -> wf_methods (rev ms ++ methods g0) ->
  Forall (fun m => req m <= maxreq g0) (methods g0) ->
  exists g1 g, build_dispatcher 0 g0 = Some g1 /\ runops (map Add ms) g1 = Some g /\ methods g = rev ms ++ methods g0 /\
    forall argv rest lc, rest = None \/ length argv <> maxreq g -> dispatch_safe cpl (methods g) (args_of argv rest) ->
    exists l l', call cpl g argv rest lc = Some l /\ calls cpl (methods g) (args_of argv rest) l' /\ visible l = visible l'.
Proof.
  intros OK D WF MR. assert (ND : NoDup (methods g0)).
  { destruct WF as (_ & N & _). apply NoDup_map_inv in N. clear - N. induction (rev ms) as [|m l IH]; cbn in N; auto. inversion N; auto. }
  destruct (build_ok 0 (methods g0) ND) as (h & B & T). unfold build_dispatcher. cbn [Nat.ltb Nat.leb MAXARGS]. rewrite B.
  destruct (adds_table ms {| methods := methods g0; maxreq := maxreq g0; disp := Some (0, h) |} h) as (g & h' & R & M & D' & T' & MR'); auto.
  exists {| methods := methods g0; maxreq := maxreq g0; disp := Some (0, h) |}, g. split; auto. split; auto. split; auto.
  cbn [methods] in M. rewrite <- M in WF. intros argv rest lc RS SAFE.
  destruct (call_table cpl OK g h' argv rest lc) as (l & l' & C & L & V); auto. exists l, l'. split; auto. split; auto.
  now apply calls_of_lt.
Qed.
(** [calls] determines the list: what is called does not depend on the order in which methods were added *)
Theorem calls_unique cpl ms args l l' : cpl_ok cpl -> calls cpl ms args l -> calls cpl ms args l' -> l = l'.
Proof.
  intros OK (A & B & C) (A' & B' & C').
  assert (AS : forall x y, before cpl args x y -> before cpl args y x -> False) by (apply before_asym; auto).
  assert (I : forall m, In m l <-> In m l') by (intro m; rewrite A, A'; tauto). clear A A'.
  revert l' B' C' I. induction l as [|x l IH]; intros [|y l'] B' C' I.
  - reflexivity.
  - exfalso. apply (I y). now left.
  - exfalso. apply (I x). now left.
  - assert (x = y) as <-.
    { destruct (proj1 (I x) (or_introl eq_refl)) as [Q|Q]; [auto|]. destruct (proj2 (I y) (or_introl eq_refl)) as [P|P]; [auto|].
      exfalso. apply In_nth_error in Q, P. destruct Q as (i & Q), P as (j & P).
      apply (AS x y); [apply (C 0 (S j))|apply (C' 0 (S i))]; auto; lia. }
    f_equal. inversion B; inversion B'; subst. apply IH; auto.
    + intros i j a b L E1 E2. apply (C (S i) (S j)); auto; lia.
    + intros i j a b L E1 E2. apply (C' (S i) (S j)); auto; lia.
    + intro m. specialize (I m). cbn in I. split; intro Q.
      * destruct (proj1 I (or_intror Q)); [subst; contradiction|auto].
      * destruct (proj2 I (or_intror Q)); [subst; contradiction|auto].
Qed.

(** counterexamples: A = 8, B = 16 below A, C = 24 *)
Local Open Scope Z_scope.
Definition cA := 8. Definition cB := 16. Definition cC := 24.
Definition cp (c : class) : list class := if c =? top then [top] else if c =? cB then [cB; cA; top] else [c; top].
Lemma cp_ok : cpl_ok cp.
Proof.
  intro c. unfold cp. destruct (Z.eqb_spec c top) as [->|N]; [|destruct (Z.eqb_spec c cB) as [->|N2]].
  - split; [eauto|]. split; [|cbn; auto]. constructor; [intros []|constructor].
  - split; [eauto|]. split; [|cbn; auto]. repeat constructor; cbn; unfold cA, cB, top; intuition discriminate.
  - split; [eauto|]. split; [|cbn; auto]. repeat constructor; cbn; intuition.
Qed.
Definition mk i (s : list class) o lf := {| mid := i; req := length s; opt := o; specs := s; leaf := lf; plc := false |}.
Definition of_ms ms := {| methods := ms; maxreq := fold_left (fun a m => Nat.max a (req m)) ms 0%nat; disp := None |}.
Definition with_table ax ms := build_dispatcher ax (of_ms ms).
(** a method found in the table that does not accept the other arguments hides a more general one *)
Theorem gf_dispatch_hides_refuted : exists ms g args l, wf_methods ms /\ with_table 0 ms = Some g /\
  call cp g args None top = Some [] /\ calls cp ms args l /\ l <> [].
Proof.
  set (m1 := mk 1 [cA; cA] false true). set (m2 := mk 2 [top; top] false true).
  assert (W : wf_methods [m1; m2]).
  { split; [repeat constructor|]. split; [repeat constructor; cbn; intuition discriminate|].
    intros a b [<-|[<-|[]]] [<-|[<-|[]]]; auto; discriminate. }
  exists [m1; m2]. destruct (with_table 0 [m1; m2]) as [g|] eqn:E; [|vm_compute in E; discriminate].
  assert (MX : Forall (fun m => req m <= maxreq (of_ms [m1; m2]))%nat (methods (of_ms [m1; m2]))) by (cbn; repeat constructor).
  destruct (call_plain cp cp_ok (of_ms [m1; m2]) [cA; cC] None top eq_refl W MX (or_introl eq_refl)) as (l & CL & L).
  exists g, [cA; cC], l. split; auto. split; auto. vm_compute in E. inversion E; subst. split; [reflexivity|].
  split; [apply calls_of_lt; [apply W|exact L]|]. vm_compute in CL. inversion CL. discriminate.
Qed.
(** a deleted method is still called: the search for its entry stops at a deleted one *)
Theorem gf_deleted_refuted : exists ms x y g, wf_methods ms /\ In y ms /\ with_table 0 ms = Some g /\
  let g' := delete_method y (delete_method x g) in ~ In y (methods g') /\ call cp g' [cA; cC] None top = Some [y].
Proof.
  set (x := mk 1 [cB] false true). set (y := mk 2 [cA; top] false true). set (z := mk 3 [top; top] false true).
  assert (W : wf_methods [x; y; z]).
  { split; [repeat constructor|]. split; [repeat constructor; cbn; intuition discriminate|].
    intros a b [<-|[<-|[<-|[]]]] [<-|[<-|[<-|[]]]]; auto; discriminate. }
  exists [x; y; z], x, y. destruct (with_table 0 [x; y; z]) as [g|] eqn:E; [|vm_compute in E; discriminate].
  exists g. split; auto. split; [cbn; auto|]. split; auto. vm_compute in E. inversion E; subst. split; [|reflexivity].
  cbn. intros [Q|[]]. discriminate.
Qed.
(** deleting the last leaf method of an entry drops the others: a later leaf method is called instead of them *)
Theorem gf_delete_leaf_refuted : exists x y w g0 g, wf_methods [w; x; y] /\ with_table 0 [x; y] = Some g0 /\
  runops [Delete x; Add w] g0 = Some g /\ methods g = [w; y] /\
  call cp g [cA; cC] None top = Some [w] /\ before cp [cA; cC] y w /\ applicable cp y [cA; cC].
Proof.
  set (x := mk 1 [cA; cB] false true). set (y := mk 2 [cA; cC] false false). set (w := mk 3 [cA; top] false true).
  assert (W : wf_methods [w; x; y]).
  { split; [repeat constructor|]. split; [repeat constructor; cbn; intuition discriminate|].
    intros a b [<-|[<-|[<-|[]]]] [<-|[<-|[<-|[]]]]; auto; discriminate. }
  exists x, y, w. destruct (with_table 0 [x; y]) as [g0|] eqn:E; [|vm_compute in E; discriminate]. exists g0.
  vm_compute in E. inversion E; subst g0. eexists. split; auto. split; [reflexivity|]. split; [vm_compute; reflexivity|].
  split; [reflexivity|]. split; [vm_compute; reflexivity|]. split.
  - left. exists 1%nat, cC, top, cC. repeat split; try reflexivity. exists 0%nat, 1%nat. repeat split; auto.
  - split; [left; reflexivity|]. intros i s I. destruct i as [|[|i]]; cbn in I; try (destruct i; discriminate); inversion I; eexists; split; try reflexivity; cbn; auto.
Qed.
(** a table on the second argument: a method that is less specific in the first one is called *)
Theorem gf_axis1_refuted : exists x y g, wf_methods [x; y] /\ with_table 1 [x; y] = Some g /\
  call cp g [cB; cC] None top = Some [y] /\ before cp [cB; cC] x y /\ applicable cp x [cB; cC].
Proof.
  set (x := mk 1 [cB; top] false true). set (y := mk 2 [top; cC] false true).
  assert (W : wf_methods [x; y]).
  { split; [repeat constructor|]. split; [repeat constructor; cbn; intuition discriminate|].
    intros a b [<-|[<-|[]]] [<-|[<-|[]]]; auto; discriminate. }
  exists x, y. destruct (with_table 1 [x; y]) as [g|] eqn:E; [|vm_compute in E; discriminate]. exists g.
  vm_compute in E. inversion E; subst g. split; auto. split; auto. split; [vm_compute; reflexivity|]. split.
  - left. exists 0%nat, cB, top, cB. repeat split; try reflexivity. exists 0%nat, 2%nat. repeat split; auto.
  - split; [left; reflexivity|]. intros i s I. destruct i as [|[|i]]; cbn in I; try (destruct i; discriminate); inversion I; eexists; split; try reflexivity; cbn; auto.
Qed.
(** four arguments: methods with optional arguments are not in the table though it is searched *)
Theorem gf_four_refuted : exists x y g, wf_methods [x; y] /\ with_table 0 [x; y] = Some g /\
  call cp g [cA; cB; cC; cC] None top = Some [y] /\ before cp [cA; cB; cC; cC] x y /\ applicable cp x [cA; cB; cC; cC].
Proof.
  set (x := mk 1 [cA; cB] true true). set (y := mk 2 [cA; top; top; top] false true).
  assert (W : wf_methods [x; y]).
  { split; [repeat constructor|]. split; [repeat constructor; cbn; intuition discriminate|].
    intros a b [<-|[<-|[]]] [<-|[<-|[]]]; auto; discriminate. }
  exists x, y. destruct (with_table 0 [x; y]) as [g|] eqn:E; [|vm_compute in E; discriminate]. exists g.
  vm_compute in E. inversion E; subst g. split; auto. split; auto. split; [vm_compute; reflexivity|]. split.
  - left. exists 1%nat, cB, top, cB. repeat split; try reflexivity. exists 0%nat, 2%nat. repeat split; auto.
  - split; [right; split; cbn; auto|]. intros i s I. destruct i as [|[|i]]; cbn in I; try (destruct i; discriminate); inversion I; eexists; split; try reflexivity; cbn; auto.
Qed.
(** apply with exactly as many single arguments as the largest number of required ones: the list is not counted *)
Theorem gf_apply_refuted : exists m g argv rest, wf_methods [m] /\ runops [Add m] new_gf = Some g /\
  call cp g argv (Some rest) top = Some [m] /\ ~ applicable cp m (argv ++ rest).
Proof.
  exists (mk 1 [cA] false true). eexists. exists [cA], [cC]. split.
  { split; [repeat constructor|]. split; [repeat constructor; cbn; intuition discriminate|]. intros a b [<-|[]] [<-|[]]; auto. }
  split; [reflexivity|]. split; [vm_compute; reflexivity|]. intros ([Q|(Q & _)] & _); discriminate.
Qed.
(** the hypotheses can be met *)
Example gf_ex : exists g, runops [Add (mk 1 [top; top] false false); Add (mk 2 [cA; top] true true); Add (mk 3 [cA; cC] false false);
    Add (mk 4 [cA; top] false false); Delete (mk 1 [top; top] false false); Add (mk 5 [cB; top] true true); Add (mk 6 [cB; top] true true)] new_gf = Some g /\
  option_map (map mid) (call cp g [cB; cC] None top) = Some [6%nat; 3%nat; 4%nat; 2%nat] /\
  option_map (map mid) (call cp g [cA] (Some [cC; cC]) top) = Some [2%nat].
Proof. eexists. split; [reflexivity|]. split; vm_compute; reflexivity. Qed.
Example gf_table_ex : let ms := [mk 1 [top; top] false false; mk 2 [cA; top] true true; mk 3 [cC; cC] false true] in
  exists g1 g, build_dispatcher 0 (of_ms ms) = Some g1 /\ runops (map Add [mk 4 [cC; top] false true; mk 5 [cA; cC] false true]) g1 = Some g /\
  option_map (map mid) (call cp g [cA; cC] None top) = Some [5%nat; 2%nat] /\
  option_map (map mid) (call cp (of_ms (methods g)) [cA; cC] None top) = Some [5%nat; 2%nat; 1%nat].
Proof.
  eexists. eexists. split; [vm_compute; reflexivity|]. split; [vm_compute; reflexivity|]. split; vm_compute; reflexivity.
Qed.
Example gf_safe_ex : dispatch_safe cp [mk 1 [top; top] false false; mk 2 [cA; top] true true] [cA; cC].
Proof.
  right. right. split; [cbn; lia|]. left. exists (mk 2 [cA; top] true true). split; [cbn; auto|]. split; [reflexivity|]. split; [|reflexivity].
  split; [left; reflexivity|]. intros i s I. destruct i as [|[|i]]; cbn in I; try (destruct i; discriminate); inversion I; eexists; split; try reflexivity; cbn; auto.
Qed.

Print Assumptions gf_call.
Print Assumptions gf_dispatch_partial.
Print Assumptions calls_unique.
Print Assumptions gf_dispatch_hides_refuted.
Print Assumptions gf_deleted_refuted.
Print Assumptions gf_delete_leaf_refuted.
Print Assumptions gf_axis1_refuted.
Print Assumptions gf_four_refuted.
Print Assumptions gf_apply_refuted.
