(** Sorting and selecting methods. *)
From Coq Require Import List Bool Arith ZArith Lia Permutation.
From Verif Require Import GfModel GfSpec.
Import ListNotations.

Lemma setnth_length {A} (l : list A) j x : length (setnth l j x) = length l.
Proof. revert j; induction l; destruct j; cbn; auto. Qed.
Lemma setnth_nth {A} (l : list A) j x k : nth_error (setnth l j x) k = if Nat.eqb k j then (if k <? length l then Some x else None) else nth_error l k.
Proof.
  revert j k; induction l as [|a l IH]; intros j k.
  - cbn [setnth length]. destruct (Nat.eqb_spec k j); destruct k; cbn; auto.
  - destruct j, k; cbn [setnth nth_error]; auto. rewrite IH. change (S k =? S j) with (k =? j). change (S k <? length (a :: l)) with (k <? length l). reflexivity.
Qed.
Lemma setnth_perm {A} (x y : A) r j : nth_error r j = Some y -> Permutation (x :: r) (y :: setnth r j x).
Proof.
  revert j; induction r as [|a r IH]; intros [|j] E; cbn in *; try discriminate.
  - inversion E; subst. constructor.
  - rewrite perm_swap. transitivity (a :: y :: setnth r j x); [|apply perm_swap]. constructor. auto.
Qed.
Lemma swap_perm {A} (a : list A) i j x y : i < j -> nth_error a i = Some x -> nth_error a j = Some y ->
  Permutation a (setnth (setnth a j x) i y).
Proof.
  revert i j; induction a as [|b a IH]; intros [|i] [|j] L E1 E2; cbn in *; try discriminate; try lia.
  - inversion E1; subst. now apply setnth_perm.
  - constructor. apply IH; auto; lia.
Qed.

Section Srt.
Context {A : Type}.
Variable cmp : A -> A -> option bool.
Variable r : A -> A -> bool.
Variable a0 : list A.
Hypothesis cmp_r : forall x y, In x a0 -> In y a0 -> cmp x y = Some (r x y).
Hypothesis r_trans : forall x y z, In x a0 -> In y a0 -> In z a0 -> r x y = true -> r y z = true -> r x z = true.
Hypothesis r_total : forall x y, In x a0 -> In y a0 -> x <> y -> r x y = false -> r y x = true.
Hypothesis nd : NoDup a0.
Lemma perm_in a j x : Permutation a0 a -> nth_error a j = Some x -> In x a0.
Proof. intros P E. eapply Permutation_in; [symmetry; exact P|]. eapply nth_error_In; eauto. Qed.
Lemma sift_perm fuel step : 1 <= step -> forall a j, Permutation a0 a -> j < length a -> exists b, sift cmp fuel step a j = Some b /\ Permutation a0 b.
Proof.
  intro ST. induction fuel as [|f IH]; intros a j P L; cbn [sift]; [eauto|].
  destruct (Nat.ltb_spec j step); [eauto|].
  destruct (nth_error a (j - step)) as [x|] eqn:E1; [|apply nth_error_None in E1; lia].
  destruct (nth_error a j) as [y|] eqn:E2; [|apply nth_error_None in E2; lia].
  rewrite (cmp_r x y) by (eapply perm_in; eauto). destruct (r x y); [eauto|].
  apply IH; [|rewrite !setnth_length; lia]. rewrite P. apply swap_perm; auto; lia.
Qed.
Definition sorted (a : list A) i : Prop := forall p q x y, p < q -> q <= i -> nth_error a p = Some x -> nth_error a q = Some y -> r x y = true.
Lemma nd_nth a p q x : Permutation a0 a -> nth_error a p = Some x -> nth_error a q = Some x -> p = q.
Proof.
  intros P E1 E2. assert (N : NoDup a) by (eapply Permutation_NoDup; eauto).
  apply (proj1 (NoDup_nth_error a) N); [apply nth_error_Some; congruence|congruence].
Qed.
Lemma sift_sorted fuel : forall a j i b, Permutation a0 a -> j <= i -> i < length a -> j < fuel ->
  (forall p q x y, p < q -> q <= i -> p <> j -> q <> j -> nth_error a p = Some x -> nth_error a q = Some y -> r x y = true) ->
  (forall q x y, j < q -> q <= i -> nth_error a j = Some x -> nth_error a q = Some y -> r x y = true) ->
  sift cmp fuel 1 a j = Some b -> sorted b i.
Proof.
  induction fuel as [|f IH]; intros a j i b P LE LT FU H1 H2 E; [lia|]. cbn [sift] in E.
  destruct (Nat.ltb_spec j 1) as [J|J].
  - inversion E; subst. intros p q x y L1 L2 E1 E2. assert (j = 0) as -> by lia. destruct p; [eapply H2; eauto|].
    eapply (H1 (S p) q); eauto; lia.
  - destruct (nth_error a (j - 1)) as [x0|] eqn:EX; [|discriminate].
    destruct (nth_error a j) as [y0|] eqn:EY; [|discriminate].
    rewrite (cmp_r x0 y0) in E by (eapply perm_in; eauto). destruct (r x0 y0) eqn:R.
    + inversion E; subst. intros p q x y L1 L2 E1 E2. destruct (Nat.eq_dec q j) as [->|NQ].
      * assert (y = y0) as -> by congruence. destruct (Nat.eq_dec p (j - 1)) as [->|NP]; [congruence|].
        eapply (r_trans x x0 y0); eauto; try (eapply perm_in; eauto). eapply (H1 p (j - 1)); eauto; lia.
      * destruct (Nat.eq_dec p j) as [->|NP]; [eapply (H2 q); eauto; congruence|eapply H1; eauto].
    + assert (NE : x0 <> y0) by (intros ->; pose proof (nd_nth _ _ _ _ P EX EY); lia).
      assert (R' : r y0 x0 = true) by (apply r_total; auto; eapply perm_in; eauto).
      assert (NT : forall k, nth_error (setnth (setnth a j x0) (j - 1) y0) k =
        if k =? j - 1 then Some y0 else if k =? j then Some x0 else nth_error a k).
      { intro k. rewrite !setnth_nth, setnth_length. destruct (Nat.eqb_spec k (j - 1)).
        - destruct (Nat.ltb_spec k (length a)); [auto|lia].
        - destruct (Nat.eqb_spec k j); auto. destruct (Nat.ltb_spec k (length a)); [auto|lia]. }
      eapply (IH _ (j - 1) i b); try exact E; try lia.
      * rewrite P. apply swap_perm; auto; lia.
      * now rewrite !setnth_length.
      * intros p q x y L1 L2 N1 N2. rewrite !NT. destruct (Nat.eqb_spec p (j - 1)); [lia|]. destruct (Nat.eqb_spec q (j - 1)); [lia|].
        destruct (Nat.eqb_spec p j) as [->|NP]; destruct (Nat.eqb_spec q j) as [->|NQ]; try lia; intros E1 E2.
        -- inversion E1; subst. eapply (H1 (j - 1) q); eauto; try lia.
        -- inversion E2; subst. eapply (H1 p (j - 1)); eauto; lia.
        -- eapply (H1 p q); eauto; lia.
      * intros q x y L1 L2. rewrite !NT, Nat.eqb_refl. destruct (Nat.eqb_spec q (j - 1)); [lia|].
        destruct (Nat.eqb_spec q j) as [->|NQ]; intros E1 E2.
        -- inversion E1; inversion E2; subst. exact R'.
        -- inversion E1; subst. eapply (H2 q); eauto; lia.
Qed.
Lemma pass_gen step : 1 <= step -> forall k s a, Permutation a0 a -> s + k <= length a0 ->
  exists b, fold_left (fun o i => match o with Some a => sift cmp (S i) step a i | None => None end) (seq s k) (Some a) = Some b /\
    Permutation a0 b /\ (step = 1 -> 1 <= s -> sorted a (s - 1) -> sorted b (s + k - 1)).
Proof.
  intro ST. induction k as [|k IH]; intros s a P L; cbn [seq fold_left].
  - exists a. split; auto. split; auto. intros. now rewrite Nat.add_0_r.
  - pose proof (Permutation_length P) as PL.
    destruct (sift_perm (S s) step ST a s P ltac:(lia)) as (b & E & Pb). rewrite E.
    destruct (IH (S s) b Pb ltac:(lia)) as (c & Ec & Pc & Sc). exists c. split; auto. split; auto.
    intros E1 S1 SR. subst step. replace (s + S k - 1) with (S s + k - 1) by lia. apply Sc; auto; try lia.
    replace (S s - 1) with s by lia. eapply (sift_sorted (S s) a s s b); eauto; try lia.
    intros p q x y L1 L2 N1 N2 Ea Eb. eapply (SR p q); eauto; lia.
Qed.
Lemma pass_ok step a : 1 <= step -> step <= length a0 -> Permutation a0 a -> exists b, pass cmp step a = Some b /\ Permutation a0 b /\ (step = 1 -> sorted b (length a0 - 1)).
Proof.
  intros ST SL P. unfold pass. pose proof (Permutation_length P) as PL.
  destruct (pass_gen step ST (length a - step) step a P ltac:(lia)) as (b & E & Pb & S'). exists b. split; auto. split; auto.
  intro E1. replace (length a0 - 1) with (step + (length a - step) - 1) by lia. apply S'; auto. intros p q x y L1 L2. lia.
Qed.
Lemma shell_ok fuel : forall step a, step <= fuel -> 1 <= step -> step <= length a0 -> Permutation a0 a ->
  exists b, shell cmp fuel step a = Some b /\ Permutation a0 b /\ sorted b (length a0 - 1).
Proof.
  induction fuel as [|f IH]; intros step a LE ST SL P; [lia|]. cbn [shell].
  destruct (Nat.eqb_spec step 0); [lia|]. destruct (pass_ok step a ST SL P) as (b & -> & Pb & Sb).
  destruct (Nat.eq_dec step 1) as [->|NS].
  - exists b. change (1 / 2) with 0. destruct f; cbn; auto.
  - assert (D : step / 2 < step) by (apply Nat.div_lt; lia). assert (1 <= step / 2) by (apply (Nat.div_le_lower_bound step 2 1); lia).
    apply IH; auto; lia.
Qed.
Lemma sort_ok : 2 <= length a0 -> exists b, sort_methods cmp a0 = Some b /\ Permutation a0 b /\
  forall p q x y, p < q -> nth_error b p = Some x -> nth_error b q = Some y -> r x y = true.
Proof.
  intro L. assert (D : length a0 / 2 < length a0) by (apply Nat.div_lt; lia).
  destruct (shell_ok (length a0) (length a0 / 2) a0) as (b & E & P & S'); auto; try lia.
  { apply (Nat.div_le_lower_bound (length a0) 2 1); lia. }
  exists b. split; auto. split; auto. intros p q x y LT E1 E2.
  assert (q < length b) by (apply nth_error_Some; congruence). rewrite <- (Permutation_length P) in *. eapply (S' p q); eauto; lia.
Qed.
End Srt.

Section W.
Variable cpl : class -> list class.
Hypothesis OK : cpl_ok cpl.
(** the order of methods *)
Fixpoint idx (x : class) (l : list class) : nat := match l with [] => 0 | c :: r => if Z.eqb x c then 0 else S (idx x r) end.
Fixpoint lt (xs : list class) (ox : bool) (ys : list class) (oy : bool) (ts : list class) : bool :=
  match xs, ys with
  | [], [] => oy
  | [], _ => false
  | _, [] => true
  | x :: xs', y :: ys' => match ts with
                          | [] => false
                          | c :: ts' => if Z.eqb x y then lt xs' ox ys' oy ts' else idx x (cpl c) <? idx y (cpl c)
                          end
  end.
Fixpoint fits (xs ts : list class) : Prop :=
  match xs, ts with [], _ => True | x :: xs', c :: ts' => In x (cpl c) /\ fits xs' ts' | _, [] => False end.
Lemma fits_iff xs : forall ts, fits xs ts <-> forall i s, nth_error xs i = Some s -> exists c, nth_error ts i = Some c /\ In s (cpl c).
Proof.
  induction xs as [|x xs IH]; intros ts; cbn.
  - split; auto. intros _ [|i] s E; discriminate.
  - destruct ts as [|c ts].
    + split; [intros []|]. intro H. destruct (H 0 x eq_refl) as (c & E & _). discriminate.
    + rewrite IH. split.
      * intros (H0 & H1) [|i] s E; cbn in *; [inversion E; subst; eauto|eauto].
      * intro H. split; [destruct (H 0 x eq_refl) as (c' & E & I); cbn in E; congruence|]. intros i s E. exact (H (S i) s E).
Qed.
Lemma idx_inj x y l : In x l -> In y l -> idx x l = idx y l -> x = y.
Proof.
  induction l as [|c l IH]; cbn; [tauto|]. intros A B. destruct (Z.eqb_spec x c), (Z.eqb_spec y c); try congruence; try discriminate.
  intro E. inversion E. apply IH; auto; [destruct A|destruct B]; auto; congruence.
Qed.
Lemma idx_lt x y l : In x l -> In y l -> x <> y -> (idx x l <? idx y l) = false -> (idx y l <? idx x l) = true.
Proof. intros A B N E. apply Nat.ltb_ge in E. apply Nat.ltb_lt. assert (idx x l <> idx y l) by (intro Q; apply N; eapply idx_inj; eauto). lia. Qed.
Lemma lt_trans xs : forall ox ys oy zs oz ts, fits xs ts -> fits ys ts -> fits zs ts ->
  lt xs ox ys oy ts = true -> lt ys oy zs oz ts = true -> lt xs ox zs oz ts = true.
Proof.
  induction xs as [|x xs IH]; intros ox ys oy zs oz ts FX FY FZ A B.
  - destruct ys; cbn in A; try discriminate. destruct zs; cbn in *; auto.
  - destruct zs as [|z zs]; cbn; [reflexivity|]. destruct ys as [|y ys]; cbn in B; try discriminate.
    destruct ts as [|c ts]; [destruct FX|]. cbn in *. destruct FX as (FX0 & FX), FY as (FY0 & FY), FZ as (FZ0 & FZ).
    destruct (Z.eqb_spec x y) as [E1|N1]; destruct (Z.eqb_spec y z) as [E2|N2]; destruct (Z.eqb_spec x z) as [E3|N3]; subst; try congruence; auto.
    + eapply (IH ox ys oy zs oz ts); eauto.
    + apply Nat.ltb_lt in A, B. lia.
    + apply Nat.ltb_lt in A, B. apply Nat.ltb_lt. lia.
Qed.
Lemma lt_total xs : forall ox ys oy ts, fits xs ts -> fits ys ts -> (xs = ys -> ox <> oy) -> lt xs ox ys oy ts = false -> lt ys oy xs ox ts = true.
Proof.
  induction xs as [|x xs IH]; intros ox ys oy ts FX FY N E.
  - destruct ys; cbn in *; auto. destruct ox, oy; auto; exfalso; apply N; auto.
  - destruct ys as [|y ys]; cbn in E; [discriminate|]. destruct ts as [|c ts]; [destruct FX|]. cbn in *.
    destruct FX as (FX0 & FX), FY as (FY0 & FY). rewrite (Z.eqb_sym y x). destruct (Z.eqb_spec x y) as [->|NE].
    + apply IH; auto. intros ->. auto.
    + apply idx_lt; auto.
Qed.
Lemma lt_asym xs : forall ox ys oy ts, (xs = ys -> ox <> oy) -> lt xs ox ys oy ts = true -> lt ys oy xs ox ts = true -> False.
Proof.
  induction xs as [|x xs IH]; intros ox ys oy ts N A B.
  - destruct ys; cbn in *; try discriminate. subst. now apply N.
  - destruct ys as [|y ys]; cbn in *; [discriminate|]. destruct ts as [|c ts]; [discriminate|].
    rewrite (Z.eqb_sym y x) in B. destruct (Z.eqb_spec x y) as [->|NE].
    + eapply (IH ox ys oy ts); eauto. intros ->. auto.
    + apply Nat.ltb_lt in A, B. lia.
Qed.
(** the model's comparison *)
Lemma in_order_idx x y l : In x l -> In y l -> x <> y -> in_order x y l = Some (idx x l <? idx y l).
Proof.
  induction l as [|c l IH]; cbn [in_order idx In]; [tauto|]. intros A B N. destruct (Z.eqb_spec x c), (Z.eqb_spec y c); subst; try congruence; auto.
  rewrite IH; auto; [destruct A; auto; congruence|destruct B; auto; congruence].
Qed.
Lemma more_lt xs : forall ys ox oy ts targv, fits xs ts -> fits ys ts -> (forall i, i < length xs -> nth_error targv i = nth_error ts i) ->
  match more_loop cpl xs ys targv with
  | None => False
  | Some (Some b) => lt xs ox ys oy ts = b
  | Some None => lt xs ox ys oy ts = if length ys <? length xs then true else if length xs <? length ys then false else oy
  end.
Proof.
  induction xs as [|x xs IH]; intros ys ox oy ts targv FX FY H.
  - destruct ys; reflexivity.
  - destruct ys as [|y ys]; [reflexivity|]. destruct ts as [|c ts]; [destruct FX|].
    destruct targv as [|ac targv]; [specialize (H 0 ltac:(cbn; lia)); discriminate|].
    pose proof (H 0 ltac:(cbn; lia)) as H0. cbn in H0. inversion H0; subst ac. cbn [more_loop lt fits] in *.
    destruct FX as (FX0 & FX), FY as (FY0 & FY). destruct (Z.eqb_spec x y) as [->|NE].
    + specialize (IH ys ox oy ts targv FX FY). apply IH. intros i L. apply (H (S i)). cbn. lia.
    + destruct (OK c) as ((l & CL) & _). destruct (Z.eqb_spec x c) as [->|N1].
      * rewrite CL. cbn [idx]. rewrite Z.eqb_refl. destruct (Z.eqb_spec y c); [congruence|]. reflexivity.
      * destruct (Z.eqb_spec y c) as [->|N2].
        -- rewrite CL. cbn [idx]. rewrite Z.eqb_refl. destruct (Z.eqb_spec x c); [congruence|]. reflexivity.
        -- rewrite in_order_idx; auto.
Qed.
Definition mlt (ts : list class) (x y : method) : bool := lt (specs x) (opt x) (specs y) (opt y) ts.
Lemma more_specific_lt x y ts targv : wf_method x -> wf_method y -> fits (specs x) ts -> fits (specs y) ts ->
  (forall i, i < length (specs x) -> nth_error targv i = nth_error ts i) -> more_specific cpl targv x y = Some (mlt ts x y).
Proof.
  intros WX WY FX FY H. pose proof (more_lt _ _ (opt x) (opt y) _ _ FX FY H) as M. unfold more_specific, mlt.
  destruct (more_loop cpl (specs x) (specs y) targv) as [[b|]|]; [congruence| |destruct M]. rewrite M, WX, WY. reflexivity.
Qed.
Lemma precedes_idx x y l : In x l -> In y l -> idx x l < idx y l -> precedes l x y.
Proof.
  assert (N : forall z m, In z m -> nth_error m (idx z m) = Some z).
  { induction m as [|c m IH]; cbn; [tauto|]. intro I. destruct (Z.eqb_spec z c) as [->|NE]; [reflexivity|]. apply IH. destruct I; congruence. }
  intros A B L. exists (idx x l), (idx y l). auto.
Qed.
Lemma lt_before xs : forall ox ys oy ts, fits xs ts -> fits ys ts -> (xs = ys -> ox <> oy) -> lt xs ox ys oy ts = true ->
  (exists i s t c, firstn i xs = firstn i ys /\ nth_error xs i = Some s /\ nth_error ys i = Some t /\
     nth_error ts i = Some c /\ precedes (cpl c) s t) \/
  (exists r, xs = ys ++ r /\ r <> []) \/ (xs = ys /\ ox = false /\ oy = true).
Proof.
  induction xs as [|x xs IH]; intros ox ys oy ts FX FY N E.
  - destruct ys; cbn in E; [|discriminate]. right. right. subst. split; auto. split; auto. destruct ox; auto. exfalso. now apply N.
  - destruct ys as [|y ys]; [right; left; exists (x :: xs); split; [reflexivity|discriminate]|].
    destruct ts as [|c ts]; [destruct FX|]. cbn in *. destruct FX as (FX0 & FX), FY as (FY0 & FY).
    destruct (Z.eqb_spec x y) as [->|NE].
    + destruct (IH ox ys oy ts FX FY) as [(i & s & t & c' & A & B & C & D & P)|[(q & A & B)|(A & B & C)]]; auto.
      * intros ->. auto.
      * left. exists (S i), s, t, c'. cbn. rewrite A. auto.
      * right. left. exists q. cbn. rewrite A. auto.
      * right. right. subst. auto.
    + left. exists 0, x, y, c. cbn. repeat split; auto. apply Nat.ltb_lt in E. now apply precedes_idx.
Qed.

(** selection *)
Lemma fill_spec argv : forall n, (0 <= n + 1)%Z -> fill n argv = (firstn (Z.to_nat (n + 1)) argv, (n - Z.of_nat (length (firstn (Z.to_nat (n + 1)) argv)))%Z).
Proof.
  induction argv as [|a r IH]; intros n P.
  - cbn. rewrite firstn_nil. cbn. f_equal. lia.
  - cbn [fill]. destruct (Z.leb_spec 0 n) as [Q|Q].
    + rewrite IH by lia. replace (Z.to_nat (n + 1)) with (S (Z.to_nat (n - 1 + 1))) by lia. cbn [firstn length]. f_equal. lia.
    + assert (n = -1)%Z as -> by lia. reflexivity.
Qed.
Lemma fill_rest_spec r : forall n, fill_rest n r = firstn (Z.to_nat n) r.
Proof.
  induction r as [|a r IH]; intro n; cbn [fill_rest]; [now rewrite firstn_nil|]. rewrite IH. destruct (Z.leb_spec 0 (n - 1)) as [Q|Q].
  - replace (Z.to_nat n) with (S (Z.to_nat (n - 1))) by lia. reflexivity.
  - replace (Z.to_nat n) with 0 by lia. replace (Z.to_nat (n - 1)) with 0 by lia. reflexivity.
Qed.
Definition args_of (argv : list class) (rest : option (list class)) := argv ++ match rest with Some r => r | None => [] end.
Lemma nth_firstn {A} (l : list A) : forall n i, i < n -> nth_error (firstn n l) i = nth_error l i.
Proof. induction l as [|a l IH]; intros [|n] [|i] L; cbn; auto; try lia. apply IH. lia. Qed.
Lemma typev_spec mr argv rest : rest = None \/ length argv <> mr ->
  exists tv, typev_of mr argv rest = (tv, length (args_of argv rest)) /\
    (forall i, i < mr -> nth_error tv i = nth_error (args_of argv rest) i) /\ (0 < length (args_of argv rest) -> nth_error tv 0 = nth_error (args_of argv rest) 0).
Proof.
  intro H. unfold typev_of, args_of. rewrite fill_spec by lia. replace (Z.to_nat (Z.of_nat mr + 1)) with (S mr) by lia.
  destruct rest as [r|].
  - destruct H as [H|H]; [discriminate|]. destruct (Nat.lt_trichotomy (length argv) mr) as [L|[L|L]]; [|contradiction|].
    + rewrite firstn_all2 by lia. destruct (Z.eqb_spec (Z.of_nat mr - Z.of_nat (length argv)) 0); [lia|].
      rewrite fill_rest_spec. eexists. split; [rewrite app_length; reflexivity|]. 
      assert (X : forall i, i < mr -> nth_error (argv ++ firstn (Z.to_nat (Z.of_nat mr - Z.of_nat (length argv))) r) i = nth_error (argv ++ r) i).
      { intros i Q. destruct (Nat.lt_ge_cases i (length argv)).
        - rewrite !nth_error_app1 by lia. reflexivity.
        - rewrite !nth_error_app2 by lia. apply nth_firstn. lia. }
      split; auto. intros _. apply X. lia.
    + assert (FL : length (firstn (S mr) argv) = S mr) by (rewrite firstn_length; lia). rewrite FL.
      destruct (Z.eqb_spec (Z.of_nat mr - Z.of_nat (S mr)) 0); [lia|]. rewrite fill_rest_spec.
      replace (Z.to_nat (Z.of_nat mr - Z.of_nat (S mr))) with 0 by lia. cbn [firstn]. rewrite app_nil_r.
      eexists. split; [rewrite app_length; reflexivity|].
      assert (X : forall i, i < S mr -> nth_error (firstn (S mr) argv) i = nth_error (argv ++ r) i).
      { intros i Q. rewrite nth_firstn, nth_error_app1 by lia. reflexivity. }
      split; [intros; apply X; lia|intros; apply X; lia].
  - rewrite app_nil_r. eexists. split; [reflexivity|]. split; [intros i Q|intros Q]; apply nth_firstn; lia.
Qed.
Lemma subclassp_in c s : subclassp cpl c s = true <-> In s (cpl c).
Proof.
  unfold subclassp. destruct (OK c) as ((l & CL) & _ & _). rewrite orb_true_iff, existsb_exists. split.
  - intros [E|(x & I & E)]; apply Z.eqb_eq in E; subst; auto. rewrite CL. now left.
  - intro I. right. exists s. split; auto. apply Z.eqb_refl.
Qed.
Lemma sp_loop_fits sp : forall tv ts, length sp <= length ts -> (forall i, i < length sp -> nth_error tv i = nth_error ts i) ->
  sp_loop cpl sp tv = true <-> fits sp ts.
Proof.
  induction sp as [|s sp IH]; intros tv ts L H; [cbn; tauto|].
  destruct ts as [|c ts]; [cbn in L; lia|]. destruct tv as [|c' tv]; [specialize (H 0 ltac:(cbn; lia)); discriminate|].
  pose proof (H 0 ltac:(cbn; lia)) as H0. cbn in H0. inversion H0; subst c'. cbn [sp_loop fits].
  assert (X : sp_loop cpl sp tv = true <-> fits sp ts).
  { apply IH; [cbn in L; lia|]. intros i Q. apply (H (S i)). cbn. lia. }
  destruct (Z.eqb_spec s top) as [->|N].
  - rewrite X. destruct (OK c) as (_ & _ & T). tauto.
  - destruct (subclassp cpl c s) eqn:SC.
    + apply subclassp_in in SC. tauto.
    + split; [discriminate|]. intros (I & _). apply subclassp_in in I. congruence.
Qed.
Lemma applicable_spec m tv args : wf_method m -> (forall i, i < length (specs m) -> nth_error tv i = nth_error args i) ->
  applicable_for cpl m tv (length args) = true <-> applicable cpl m args.
Proof.
  intros WM H. unfold applicable_for, applicable. rewrite <- fits_iff. unfold wf_method in WM.
  destruct (Nat.ltb_spec (length args) (req m)) as [L|L]; cbn [orb].
  - split; [discriminate|]. intros ([A|(_ & A)] & _); lia.
  - rewrite <- (sp_loop_fits (specs m) tv args) by (auto; lia). destruct (opt m); cbn [negb andb].
    + tauto.
    + destruct (Nat.eqb_spec (length args) (req m)); cbn; [tauto|]. split; [discriminate|]. intros ([A|(A & _)] & _); [contradiction|discriminate].
Qed.
Definition calls_lt (ms : list method) (args : list class) (l : list method) : Prop :=
  (forall m, In m l <-> In m ms /\ plc m = false /\ applicable cpl m args) /\ NoDup l /\
  forall i j a b, i < j -> nth_error l i = Some a -> nth_error l j = Some b -> mlt args a b = true.
(** the methods that are called are the applicable candidates in order *)
Lemma call_gen g argv rest lc cs : wf_methods cs -> cs <> [] -> methods g <> [] -> Forall (fun m => req m <= maxreq g) cs ->
  rest = None \/ length argv <> maxreq g ->
  (forall tv, nth_error tv 0 = nth_error (args_of argv rest) 0 \/ args_of argv rest = [] -> candidates g tv (length (args_of argv rest)) = cs) ->
  exists l, call cpl g argv rest lc = Some l /\ calls_lt cs (args_of argv rest) l.
Proof.
  intros (WF & ND & SIG) NE NM MR R CA. set (args := args_of argv rest) in *.
  destruct (typev_spec (maxreq g) argv rest R) as (tv & TV & T1 & T2). fold args in TV, T1, T2.
  assert (C' : candidates g tv (length args) = cs).
  { apply CA. destruct args as [|c ar]; [now right|left; apply T2; cbn; lia]. }
  rewrite Forall_forall in WF, MR.
  assert (F : compute_applicable cpl g argv rest = filter (fun m => negb (plc m) && applicable_for cpl m tv (length args)) cs).
  { unfold compute_applicable. destruct (methods g) eqn:EM; [congruence|]. rewrite TV, C'. destruct cs as [|a [|b cs']]; auto. }
  set (fs := filter (fun m => negb (plc m) && applicable_for cpl m tv (length args)) cs) in *.
  assert (IN : forall m, In m fs <-> In m cs /\ plc m = false /\ applicable cpl m args).
  { intro m. unfold fs. rewrite filter_In, andb_true_iff, negb_true_iff. assert (A' : In m cs -> (applicable_for cpl m tv (length args) = true <-> applicable cpl m args)).
    { intro A. apply applicable_spec; auto. intros i L. apply T1. rewrite (WF m A) in L. specialize (MR m A). lia. }
    tauto. }
  assert (NDF : NoDup fs) by (apply NoDup_filter; eapply NoDup_map_inv; eauto).
  unfold call. rewrite F. destruct fs as [|a [|b fs']] eqn:EF.
  - exists []. split; auto. split; auto. split; auto. intros i j x y L E; destruct i; discriminate.
  - exists [a]. split; auto. split; auto. split; auto. intros i j x y L E1 E2. destruct j as [|[|j]]; try discriminate; lia.
  - rewrite <- EF in *. 
    assert (FIT : forall m, In m fs -> fits (specs m) args) by (intros m I; apply IN in I; destruct I as (_ & _ & (_ & I)); now apply fits_iff).
    assert (TG : forall m i, In m fs -> i < length (specs m) -> nth_error (targv_of (maxreq g) argv rest lc) i = nth_error args i).
    { intros m i I L. apply IN in I. destruct I as (I & _ & (AR & _)). rewrite (WF m I) in L. specialize (MR m I). 
      assert (L2 : i < length args) by lia. unfold targv_of. unfold args, args_of in *. destruct rest as [rs|].
      - destruct (Nat.lt_ge_cases i (length argv)); [rewrite !nth_error_app1 by lia; reflexivity|].
        rewrite app_length in L2. rewrite (nth_error_app2 argv rs) by lia. rewrite (nth_error_app2 argv (_ ++ _)) by lia.
        rewrite nth_error_app1 by (rewrite firstn_length; lia). apply nth_firstn. lia.
      - now rewrite app_nil_r. }
    assert (DIS : forall x y, In x fs -> In y fs -> x <> y -> specs x = specs y -> opt x <> opt y).
    { intros x y I J N ES EO. apply IN in I, J. apply N. apply SIG; tauto. }
    destruct (sort_ok (more_specific cpl (targv_of (maxreq g) argv rest lc)) (mlt args) fs) as (l & E & P & S'); auto.
    + intros x y I J. apply more_specific_lt; auto; try (apply WF; now apply IN).
      intros i L. apply (TG x); auto.
    + intros x y z I J K A B. eapply (lt_trans _ _ (specs y) (opt y)); eauto.
    + intros x y I J N E. apply lt_total; auto.
    + rewrite EF. cbn. lia.
    + exists l. rewrite EF in E at 1. split; [rewrite <- EF in E; rewrite EF; rewrite <- EF; exact E|]. split; [|split].
      * intro m. rewrite <- IN. split; intro I; [eapply Permutation_in; [symmetry; exact P|exact I]|eapply Permutation_in; eauto].
      * eapply Permutation_NoDup; eauto.
      * intros i j x y L E1 E2. eapply S'; eauto.
Qed.
Lemma calls_of_lt ms args l : wf_methods ms -> calls_lt ms args l -> calls cpl ms args l.
Proof.
  intros (WF & ND & SIG) (A & B & C). split; auto. split; auto. intros i j a b L E1 E2.
  assert (IA : In a l) by (eapply nth_error_In; eauto). assert (IB : In b l) by (eapply nth_error_In; eauto).
  apply A in IA, IB. destruct IA as (IA & _ & (_ & FA)), IB as (IB & _ & (_ & FB)).
  apply (lt_before (specs a) (opt a) (specs b) (opt b) args); [now apply fits_iff|now apply fits_iff| |eapply C; eauto].
  intros ES EO. assert (a = b) as -> by (apply SIG; auto).
  assert (i = j); [|lia]. apply (proj1 (NoDup_nth_error l) B); [apply nth_error_Some; congruence|congruence].
Qed.
End W.
