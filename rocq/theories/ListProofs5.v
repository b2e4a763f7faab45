(** append, append!, alist-delete!, delete-duplicates vs first occurrences *)
From Coq Require Import List Bool ZArith Lia.
From Verif Require Import Outcome ListModel ListSpec ListProofs ListProofs2 ListProofs3 ListProofs4.
Import ListNotations.
Ltac Zify.zify_post_hook ::= idtac.

Lemma seg_in_heap : forall h v A xs w, seg h v A xs w -> A <> [] -> in_heap h v.
Proof. intros h v A xs w S Ne. inversion S; subst; [congruence|]. cbn. apply nth_error_Some. congruence. Qed.
Lemma seg_end_in_heap : forall h v A xs w, closed h -> seg h v A xs w -> in_heap h v -> in_heap h w.
Proof.
  induction 2; auto. intro I. apply IHseg. cbn in I. destruct (closed_cell h a H I) as (x' & d' & E & _ & Id). rewrite H0 in E. congruence.
Qed.
Lemma last_pair_seg : forall h v A a xs x t, closed h -> seg h v (A ++ [a]) (xs ++ [x]) t -> pairp t = false -> last_pair h v = Ok (Ptr a).
Proof.
  intros h v A a xs x t C S Pt.
  assert (Ln : length (A ++ [a]) <= length h) by (eapply seg_short; eauto).
  assert (F : finite h v (length (xs ++ [x]))) by (apply (list_of_finite h v (xs ++ [x]) t); split; [now apply pairp_false|eauto]).
  pose proof (seg_len _ _ _ _ _ S) as L. rewrite !app_length in L. cbn in L.
  assert (I : in_heap h v) by (eapply seg_in_heap; eauto; destruct A; discriminate).
  unfold last_pair. assert (Pv : pairp v = true) by (inversion S; subst; [destruct A; discriminate|reflexivity]). rewrite Pv.
  rewrite app_length in *. cbn [length] in *.
  pose proof (last_pair_finite h C v _ I F (Datatypes.S (length h)) 0 ltac:(lia) ltac:(lia)) as E. change (ncdr h (2 * 0) v) with v in E. change (ncdr h 0 v) with v in E. rewrite E. f_equal.
  replace (length xs + 1 - 1) with (length A) by lia. apply (seg_nth _ _ _ _ _ S). rewrite nth_error_app2, Nat.sub_diag by lia. reflexivity.
Qed.

(** ** append *)
Section Append.
Variable h0 : heap.
Hypothesis C0 : closed h0.
Lemma build_ext : forall h h' s l xs, build h0 h s l xs -> closed h' -> preserved h h' -> build h0 h' s l xs.
Proof.
  intros h h' s l xs B Cl P. pose proof (preserved_len _ _ P) as Lp. pose proof (bu_len _ _ _ _ _ B). constructor; auto; try lia.
  - eapply preserved_trans; [|apply B|exact P]. auto.
  - destruct (bu_shape _ _ _ _ _ B) as [X|(addrs & ys & y & a & E1 & E2 & S & F)]; auto. right.
    exists addrs, ys, y, a. split; auto. split; auto. split; auto. eapply seg_preserved; eauto.
Qed.
Lemma append_step : forall h s l xs x n, build h0 h s l xs -> in_heap h0 x -> finite h0 x n -> pairp x = true -> n <= length h0 ->
  exists h1 h2 c s2 l2 a, copy_list h x = Ok (h1, c) /\ append_macro h1 s l c = Ok (h2, s2, l2) /\ l2 = Ptr a /\ cdr h2 l2 = Ok (ncdr h0 n x) /\
    (ncdr h0 n x = Nil -> build h0 h2 s2 l2 (xs ++ elts h0 x 0 n)).
Proof.
  intros h s l xs x n B I F Px Ln. destruct (prefix_seg h0 x n n C0 I (proj1 F) (le_n n)) as (A & S0).
  pose proof (seg_preserved _ _ _ _ _ _ S0 (bu_pres _ _ _ _ _ B)) as S.
  assert (Pt : pairp (ncdr h0 n x) = false) by apply F.
  assert (Lh : length h0 <= length h) by apply B.
  assert (Fh : finite h x n).
  { replace n with (length (elts h0 x 0 n)) by apply elts_len. apply (list_of_finite h x _ (ncdr h0 n x)). split; [now apply pairp_false|eauto]. }
  assert (Ih : in_heap h x) by (eapply in_heap_mono; eauto).
  destruct (copy_list_finite h (bu_closed _ _ _ _ _ B) x n Ih Fh ltac:(lia)) as (h1 & c & D & E1 & C1 & P1 & S1 & F1 & N1).
  assert (Ee : elts h x 0 n = elts h0 x 0 n) by (rewrite (seg_elts _ _ _ _ _ S), elts_len; reflexivity).
  assert (Et : ncdr h n x = ncdr h0 n x) by (rewrite <- (seg_ncdr _ _ _ _ _ S); f_equal; rewrite (seg_len _ _ _ _ _ S), elts_len; auto).
  rewrite Ee, Et in S1.
  assert (Np : n <> 0) by (intros ->; cbn in Pt; congruence).
  assert (Ne : D <> []). { intros ->. apply seg_len in S1. rewrite elts_len in S1. cbn in S1. congruence. }
  destruct (seg_last_split _ _ _ _ _ S1 Ne) as (D' & a & ys & y & -> & Ey). rewrite Ey in S1.
  assert (Nc : nullp c = false) by (inversion S1; subst; [destruct D'; discriminate|reflexivity]).
  pose proof (build_ext _ _ _ _ _ B C1 P1) as B1.
  assert (Lf : length h0 <= length h1) by apply B1.
  destruct (seg_snoc_inv _ _ _ _ _ _ _ S1) as (_ & S1' & Ea & _).
  exists h1. unfold append_macro. destruct (nullp s) eqn:Ns.
  - pose proof (proj1 (build_start_null _ _ _ _ _ B1) Ns) as ->.
    exists h1, c, c, (Ptr a), a. split; auto. split; [rewrite Nc, (last_pair_seg _ _ _ _ _ _ _ C1 S1 Pt); reflexivity|]. split; auto. split; [eapply cdr_at; eauto|]. intros En.
    constructor; auto; [apply B1|]. right. exists D', ys, y, a. rewrite <- Ey. split; auto. split; auto. rewrite <- En. rewrite Ey. split; auto.
    eapply Forall_impl; [|exact F1]. cbn. intros; lia.
  - destruct (bu_shape _ _ _ _ _ B1) as [(_ & -> & _)|(A2 & zs & z & b & -> & -> & S2 & F2)]; [discriminate|].
    destruct (seg_snoc_inv _ _ _ _ _ _ _ S2) as (_ & S2' & Eb & _).
    assert (Lb : b < length h).
    { destruct (bu_shape _ _ _ _ _ B) as [(_ & -> & _)|(A3 & zs' & z' & b' & _ & Eb' & S3 & _)]; [discriminate|]. injection Eb' as <-.
      pose proof (seg_bounds _ _ _ _ _ S3) as Bd. rewrite Forall_app in Bd. destruct Bd as [_ Bd]. now inversion Bd. }
    assert (NbD : ~ In b (D' ++ [a])). { intro X. rewrite Forall_forall in F1. specialize (F1 b X). lia. }
    pose proof (seg_nodup _ _ _ _ _ S2 eq_refl) as Nd2.
    assert (C2 : closed (store b (z, c) h1)).
    { assert (Lb1 : b < length h1) by (apply nth_error_Some; congruence). destruct (closed_cell h1 b C1 Lb1) as (z' & e' & Ez & Iz & _). rewrite Eb in Ez. injection Ez as <- <-.
      apply closed_store; auto. exact (seg_in_heap _ _ _ _ _ S1 Ne). }
    assert (Sj : seg (store b (z, c) h1) (Ptr b) (([b] ++ D') ++ [a]) (([z] ++ ys) ++ [y]) (ncdr h0 n x)).
    { rewrite <- !app_assoc. eapply seg_app.
      - econstructor; [apply store_same; apply nth_error_Some; congruence|constructor].
      - apply seg_store; auto. }
    exists (store b (z, c) h1), c, s, (Ptr a), a. split; auto. split; [rewrite (set_cdr_at _ _ _ _ _ Eb); cbn [bind]; rewrite (last_pair_seg _ _ _ _ _ _ _ C2 Sj Pt); reflexivity|]. split; auto.
    destruct (seg_snoc_inv _ _ _ _ _ _ _ Sj) as (_ & _ & Ea2 & _). split; [eapply cdr_at; eauto|]. intros En.
    assert (Lb0 : length h0 <= b) by (rewrite Forall_app in F2; destruct F2 as [_ F2]; now inversion F2).
    constructor; auto.
    + apply preserved_store; auto. apply B1.
    + rewrite store_len. auto.
    + right. exists ((A2 ++ [b]) ++ D'), ((zs ++ [z]) ++ ys), y, a. rewrite Ey, <- En. rewrite !app_assoc. split; auto. split; auto. split.
      * rewrite <- !(app_assoc (A2 ++ [b])), <- !(app_assoc (zs ++ [z])). eapply seg_app; [|apply seg_store; eauto].
        eapply seg_set_last; eauto. now apply nodup_snoc.
      * rewrite <- (app_assoc (A2 ++ [b])), Forall_app. split; auto. eapply Forall_impl; [|exact F1]. cbn. intros; lia.
Qed.
Lemma append_args_ok : forall lists h s l xs w, build h0 h s l xs -> in_heap h0 w ->
  Forall (fun p => proper h0 (fst p) (snd p)) lists ->
  exists h' r A, append_args h s l (map fst lists ++ [w]) = Ok (h', r) /\ closed h' /\ preserved h0 h' /\ seg h' r A (xs ++ concat (map snd lists)) w /\
    Forall (fun b => length h0 <= b) A.
Proof.
  induction lists as [|[x ys] lists IH]; intros h s l xs w B Iw F.
  - cbn [map app append_args concat]. rewrite app_nil_r. destruct (nullp s) eqn:Ns.
    + pose proof (proj1 (build_start_null _ _ _ _ _ B) Ns) as ->. exists h, w, []. split; auto. split; [apply B|]. split; [apply B|]. split; constructor.
    + assert (Hn : xs <> []) by (intro X; apply (build_start_null _ _ _ _ _ B) in X; congruence).
      destruct (build_finish _ _ _ _ _ w B Hn) as (h2 & addrs & E2 & C2 & P2 & G2 & S2 & F2 & N2).
      { eapply in_heap_mono; [apply B|auto]. }
      rewrite E2. cbn [bind]. eauto 8.
  - inversion F as [|? ? Fx Fr]; subst. cbn [fst snd] in Fx. pose proof (list_of_in_heap _ _ _ _ Fx) as Ix. destruct (list_of_finite _ _ _ _ Fx) as [Fi En].
    destruct Fx as [_ (A & Sx)]. pose proof (seg_elts _ _ _ _ _ Sx) as Ey.
    assert (Ln : length ys <= length h0) by (rewrite <- (seg_len _ _ _ _ _ Sx); eapply seg_short; eauto).
    cbn [map fst snd concat]. cbn [app]. 
    assert (R : forall rest, append_args h s l (x :: rest ++ [w]) = if nullp x then append_args h s l (rest ++ [w])
        else if negb (pairp x) then Err else
      (do '(h1, c) <- copy_list h x;
      do '(h2, s2, l2) <- append_macro h1 s l c;
      do bad <- (if pairp l2 then do d <- cdr h2 l2; Ok (negb (nullp d)) else Ok false);
      if bad : bool then Err else append_args h2 s2 l2 (rest ++ [w]))).
    { intro rest. destruct (rest ++ [w]) eqn:E; [destruct rest; discriminate|]. reflexivity. }
    rewrite R. destruct (nullp x) eqn:Nx.
    + assert (x = Nil) by (destruct x; auto; discriminate). subst x. inversion Sx; subst. cbn [app]. apply IH; auto.
    + assert (Px : pairp x = true) by (inversion Sx; subst; [discriminate|reflexivity]). rewrite Px. cbn [negb].
      destruct (append_step h s l xs x (length ys) B Ix Fi Px Ln) as (h1 & h2 & c & s2 & l2 & a & E1 & E2 & -> & E3 & B2).
      rewrite E1. cbn [bind]. rewrite E2. cbn [bind pairp]. rewrite E3. cbn [bind]. rewrite En. cbn [nullp negb].
      destruct (IH h2 s2 (Ptr a) (xs ++ ys) w) as (h' & r & A' & X); auto. { rewrite <- Ey in B2. auto. }
      exists h', r, A'. rewrite app_assoc. exact X.
Qed.
(** an argument other than the last that is not a proper list is an error *)
Lemma append_args_bad : forall lists h s l xs bad y rest, build h0 h s l xs -> in_heap h0 bad -> (forall ys, ~ proper h0 bad ys) ->
  Forall (fun p => proper h0 (fst p) (snd p)) lists -> append_args h s l (map fst lists ++ bad :: y :: rest) = Err.
Proof.
  induction lists as [|[x ys] lists IH]; intros h s l xs bad y rest B Ib Bad F.
  - cbn [map app]. cbn [append_args]. destruct (nullp bad) eqn:Nb.
    { exfalso. apply (Bad []). destruct bad; try discriminate. split; [intros (a & E); discriminate|]. exists []. constructor. }
    destruct (pairp bad) eqn:Pb; cbn [negb]; auto.
    destruct (finite_or_endless h0 bad C0 Ib) as [(n & Ln & Fi)|En].
    + destruct (append_step h s l xs bad n B Ib Fi Pb Ln) as (h1 & h2 & c & s2 & l2 & a & E1 & E2 & -> & E3 & B2).
      rewrite E1. cbn [bind]. rewrite E2. cbn [bind pairp]. rewrite E3. cbn [bind].
      destruct (nullp (ncdr h0 n bad)) eqn:Nn; cbn [negb]; auto. exfalso.
      destruct (finite_list_of h0 bad n C0 Ib Fi) as (zs & Lz & _). apply (Bad zs). unfold proper. destruct (ncdr h0 n bad); try discriminate. exact Lz.
    + assert (Ec : copy_list h bad = Err).
      { apply copy_list_endless; [apply B|eapply in_heap_mono; [apply B|auto]|]. apply circular_endless; [apply B|eapply in_heap_mono; [apply B|auto]|].
        apply circular_endless in En; auto. intro n. destruct (En n) as (A & zs & a & La & Sa). exists A, zs, a. split; auto. eapply seg_preserved; eauto. apply B. }
      rewrite Ec. reflexivity.
  - inversion F as [|? ? Fx Fr]; subst. cbn [fst snd] in Fx. pose proof (list_of_in_heap _ _ _ _ Fx) as Ix. destruct (list_of_finite _ _ _ _ Fx) as [Fi En].
    destruct Fx as [_ (A & Sx)]. pose proof (seg_elts _ _ _ _ _ Sx) as Ey.
    assert (Ln : length ys <= length h0) by (rewrite <- (seg_len _ _ _ _ _ Sx); eapply seg_short; eauto).
    cbn [map fst snd concat]. cbn [app]. 
    assert (R : forall a b z, append_args h s l (x :: a ++ b :: z) = if nullp x then append_args h s l (a ++ b :: z)
        else if negb (pairp x) then Err else
      (do '(h1, c) <- copy_list h x;
      do '(h2, s2, l2) <- append_macro h1 s l c;
      do bad <- (if pairp l2 then do d <- cdr h2 l2; Ok (negb (nullp d)) else Ok false);
      if bad : bool then Err else append_args h2 s2 l2 (a ++ b :: z))).
    { intros a b z. destruct (a ++ b :: z) eqn:E; [destruct a; discriminate|]. reflexivity. }
    rewrite R. destruct (nullp x) eqn:Nx.
    + eapply IH; eauto.
    + assert (Px : pairp x = true) by (inversion Sx; subst; [discriminate|reflexivity]). rewrite Px. cbn [negb].
      destruct (append_step h s l xs x (length ys) B Ix Fi Px Ln) as (h1 & h2 & c & s2 & l2 & a & E1 & E2 & -> & E3 & B2).
      rewrite E1. cbn [bind]. rewrite E2. cbn [bind pairp]. rewrite E3. cbn [bind]. rewrite En. cbn [nullp negb].
      eapply IH; eauto.
Qed.
End Append.

(** ** append! *)
Lemma nodup_app_disj : forall (a b : list nat) q, NoDup (a ++ b) -> In q a -> In q b -> False.
Proof. induction a as [|z a IH]; intros b q N H1 H2; cbn in *; [auto|]. inversion N; subst. destruct H1 as [->|H1]; [apply H3, in_app_iff; auto|eauto]. Qed.
Lemma append_macro_ok : forall h s l obj A xs a B ys, closed h -> seg h obj B ys Nil -> B <> [] -> NoDup (A ++ B) ->
  (s = Nil /\ l = Nil /\ A = [] /\ xs = []) \/ (exists A' xs' x, A = A' ++ [a] /\ xs = xs' ++ [x] /\ l = Ptr a /\ seg h s A xs Nil) ->
  exists h' s' B' b ys' y, append_macro h s l obj = Ok (h', s', Ptr b) /\ closed h' /\ seg h' s' (A ++ B) (xs ++ ys) Nil /\ B = B' ++ [b] /\ ys = ys' ++ [y] /\
    changed_only A h h' /\ length h' = length h.
Proof.
  intros h s l obj A xs a B ys C S Ne N Sh. destruct (seg_last_split _ _ _ _ _ S Ne) as (B' & b & ys' & y & -> & ->).
  assert (No : nullp obj = false) by (inversion S; subst; [destruct B'; discriminate|reflexivity]).
  unfold append_macro. destruct Sh as [(-> & -> & -> & ->)|(A' & xs' & x & -> & -> & -> & Ss)].
  - cbn [nullp]. rewrite No, (last_pair_seg _ _ _ _ _ _ _ C S eq_refl). cbn [bind]. exists h, obj, B', b, ys', y.
    split; auto. split; auto. split; auto. split; auto. split; auto. split; auto. apply changed_refl.
  - assert (Ns : nullp s = false) by (inversion Ss; subst; [destruct A'; discriminate|reflexivity]). rewrite Ns.
    destruct (seg_snoc_inv _ _ _ _ _ _ _ Ss) as (_ & S1 & Ea & _). rewrite (set_cdr_at _ _ _ _ _ Ea). cbn [bind].
    assert (NaB : ~ In a (B' ++ [b]) /\ ~ In a A').
    { rewrite <- app_assoc in N. cbn [app] in N. apply NoDup_remove_2 in N. rewrite in_app_iff in N. tauto. }
    destruct NaB as [NaB NaA].
    assert (Sj : seg (store a (x, obj) h) (Ptr a) (([a] ++ B') ++ [b]) (([x] ++ ys') ++ [y]) Nil).
    { rewrite <- !app_assoc. eapply seg_app; [econstructor; [apply store_same; apply nth_error_Some; congruence|constructor]|]. apply seg_store; auto. }
    assert (C2 : closed (store a (x, obj) h)).
    { assert (La : a < length h) by (apply nth_error_Some; congruence). destruct (closed_cell h a C La) as (x' & d' & E & Ix & _). rewrite Ea in E. injection E as <- <-.
      apply closed_store; auto. eapply seg_in_heap; eauto. }
    rewrite (last_pair_seg _ _ _ _ _ _ _ C2 Sj eq_refl). cbn [bind]. eexists _, s, B', b, ys', y. split; auto. split; auto. split.
    + eapply seg_app; [eapply seg_set_last; eauto|]. apply seg_store; auto.
    + split; auto. split; auto. split; [apply changed_store, in_app_iff; right; left; auto|apply store_len].
Qed.
Lemma append_macro_nil : forall h s l A' xs' x a, closed h -> l = Ptr a -> seg h s (A' ++ [a]) (xs' ++ [x]) Nil ->
  append_macro h s l Nil = Ok (store a (x, Nil) h, s, l) /\ store a (x, Nil) h = h.
Proof.
  intros h s l A' xs' x a C -> S. unfold append_macro.
  assert (Ns : nullp s = false) by (inversion S; subst; [destruct A'; discriminate|reflexivity]). rewrite Ns.
  destruct (seg_snoc_inv _ _ _ _ _ _ _ S) as (_ & S1 & Ea & _). rewrite (set_cdr_at _ _ _ _ _ Ea). cbn [bind].
  assert (E : store a (x, Nil) h = h).
  { clear - Ea. revert a Ea. induction h as [|c h IH]; intros [|a] E; cbn in *; try congruence. f_equal. auto. }
  rewrite E. split; auto.
  assert (Sj : seg h (Ptr a) ([] ++ [a]) ([] ++ [x]) Nil) by (econstructor; [exact Ea|constructor]).
  rewrite (last_pair_seg _ _ _ _ _ _ _ C Sj eq_refl). reflexivity.
Qed.
(** [lists]: the arguments before the last, with the addresses and elements of each *)
Lemma append_x_args_ok : forall lists h s l A xs w, closed h -> in_heap h w ->
  Forall (fun p => seg h (fst p) (fst (snd p)) (snd (snd p)) Nil) lists -> NoDup (A ++ concat (map (fun p => fst (snd p)) lists)) ->
  (s = Nil /\ l = Nil /\ A = [] /\ xs = []) \/ (exists A' a xs' x, A = A' ++ [a] /\ xs = xs' ++ [x] /\ l = Ptr a /\ seg h s A xs Nil) ->
  exists h' r, append_x_args h s l (map fst lists ++ [w]) = Ok (h', r) /\ 
    seg h' r (A ++ concat (map (fun p => fst (snd p)) lists)) (xs ++ concat (map (fun p => snd (snd p)) lists)) w /\
    changed_only (A ++ concat (map (fun p => fst (snd p)) lists)) h h' /\ length h' = length h.
Proof.
  induction lists as [|[v [B ys]] lists IH]; intros h s l A xs w C Iw F N Sh.
  - cbn [map app append_x_args concat] in *. rewrite !app_nil_r in *. destruct Sh as [(-> & -> & -> & ->)|(A' & a & xs' & x & -> & -> & -> & Ss)].
    + cbn [nullp]. exists h, w. split; auto. split; [constructor|]. split; auto. apply changed_refl.
    + assert (Ns : nullp s = false) by (inversion Ss; subst; [destruct A'; discriminate|reflexivity]). rewrite Ns.
      destruct (seg_snoc_inv _ _ _ _ _ _ _ Ss) as (_ & S1 & Ea & _). rewrite (set_cdr_at _ _ _ _ _ Ea). cbn [bind].
      eexists _, _. split; auto. split; [eapply seg_set_last; eauto; now apply nodup_snoc|]. split; [apply changed_store, in_app_iff; right; left; auto|apply store_len].
  - inversion F as [|? ? Sv Fr]; subst. cbn [map fst snd concat] in *.
    assert (R : append_x_args h s l ((v :: map fst lists) ++ [w]) =
      (do '(h2, s2, l2) <- append_macro h s l v;
       do bad <- (if nullp l2 then Ok false else do d <- cdr h2 l2; Ok (negb (nullp d)));
       if bad : bool then Err else append_x_args h2 s2 l2 (map fst lists ++ [w]))).
    { cbn [app]. destruct (map fst lists ++ [w]) eqn:E; [destruct (map fst lists); discriminate|]. reflexivity. }
    rewrite R. destruct B as [|b0 B0].
    + inversion Sv; subst. cbn [app] in *.
      destruct Sh as [(-> & -> & -> & ->)|(A' & a & xs' & x & -> & -> & -> & Ss)].
      * cbn [append_macro nullp bind]. destruct (IH h Nil Nil [] [] w) as (h' & r & X); auto. eauto.
      * destruct (append_macro_nil h s (Ptr a) A' xs' x a C eq_refl Ss) as [E Eh]. rewrite E, Eh. cbn [bind nullp].
        destruct (seg_snoc_inv _ _ _ _ _ _ _ Ss) as (_ & S1 & Ea & _). rewrite (cdr_at _ _ _ _ Ea). cbn [bind nullp negb].
        apply IH; auto. right. exists A', a, xs', x. auto.
    + set (B := b0 :: B0) in *. assert (Ne : B <> []) by discriminate.
      assert (Sh2 : exists a, (s = Nil /\ l = Nil /\ A = [] /\ xs = []) \/ (exists A' xs' x, A = A' ++ [a] /\ xs = xs' ++ [x] /\ l = Ptr a /\ seg h s A xs Nil)).
      { destruct Sh as [X|(A' & a & xs' & x & X)]; [exists 0; auto|exists a; right; exists A', xs', x; exact X]. }
      destruct Sh2 as (a & Sh2).
      destruct (append_macro_ok h s l v A xs a B ys C Sv Ne) as (h1 & s1 & B' & b & ys' & y & E & C1 & S1 & EB & Ey & Cg & Le); auto.
      { apply nodup_app_l with (b := concat (map (fun p : val * (list nat * list val) => fst (snd p)) lists)). rewrite <- app_assoc. exact N. }
      rewrite E. cbn [bind nullp].
      assert (S1' : seg h1 s1 ((A ++ B') ++ [b]) ((xs ++ ys') ++ [y]) Nil) by (rewrite EB, Ey, !app_assoc in S1; exact S1).
      destruct (seg_snoc_inv _ _ _ _ _ _ _ S1') as (_ & _ & Eb & _). rewrite (cdr_at _ _ _ _ Eb). cbn [bind nullp negb].
      destruct (IH h1 s1 (Ptr b) (A ++ B) (xs ++ ys) w) as (h2 & r & E2 & S2 & Cg2 & Le2); auto.
      * eapply in_heap_mono; [|exact Iw]. lia.
      * rewrite Forall_forall in *. intros p Hp. eapply seg_changed; [apply Fr; exact Hp|exact Cg|].
        intros q Hq Hq2. clear - N Hp Hq Hq2. 
        assert (X : In q (B ++ concat (map (fun p : val * (list nat * list val) => fst (snd p)) lists))).
        { apply in_app_iff. right. apply in_concat. exists (fst (snd p)). split; auto. apply in_map_iff. eauto. }
        exact (nodup_app_disj _ _ q N Hq2 X).
      * rewrite <- app_assoc. exact N.
      * right. exists (A ++ B'), b, (xs ++ ys'), y. rewrite EB, Ey, !app_assoc. split; auto.
      * exists h2, r. split; auto. rewrite <- !app_assoc in S2. rewrite <- !app_assoc in Cg2. split; auto. split; [|lia].
        eapply changed_trans; [rewrite Le; reflexivity| |exact Cg2]. eapply changed_incl; [|exact Cg]. intros q Hq. apply in_app_iff. auto.
Qed.

(** ** alist-delete! *)
Section Alist.
Variable eqm : val -> val -> bool.
Definition cars (h h' : heap) : Prop := forall a, option_map fst (nth_error h' a) = option_map fst (nth_error h a).
Lemma cars_refl : forall h, cars h h. Proof. intros h a. reflexivity. Qed.
Lemma cars_store : forall h h' a x d d', cars h h' -> nth_error h' a = Some (x, d) -> cars h (store a (x, d') h').
Proof.
  intros h h' a x d d' H E b. destruct (Nat.eq_dec a b) as [<-|Ne].
  - rewrite store_same by (apply nth_error_Some; congruence). rewrite <- H, E. reflexivity.
  - rewrite store_other by auto. apply H.
Qed.
Lemma alist_hit_cars : forall h h' obj x, cars h h' -> in_heap h x -> alist_hit eqm obj h' x = Ok (hitb h eqm obj x).
Proof.
  intros h h' obj x H I. unfold alist_hit, hitb. destruct x as [|z|a]; auto. cbn [pairp]. cbn in I. specialize (H a).
  destruct (nth_error h a) as [[k d]|] eqn:E; [|apply nth_error_None in E; lia].
  destruct (nth_error h' a) as [[k' d']|] eqn:E'; cbn in H; [|discriminate]. injection H as ->. unfold car, cell. rewrite E'. reflexivity.
Qed.
(** what the loop computes: after an unlink the next hit survives *)
Fixpoint adx (hit : val -> bool) (prev_linked : bool) (xs : list val) : list val :=
  match xs with
  | [] => []
  | x :: r => if hit x then if prev_linked then adx hit false r else x :: adx hit true r
              else x :: adx hit true r
  end.
Fixpoint drop_hits (hit : val -> bool) (xs : list val) : list val :=
  match xs with [] => [] | x :: r => if hit x then drop_hits hit r else xs end.
Lemma adx_loop_ok : forall h0 fuel h obj l K ks p cp R rs t b, length R < fuel -> pairp t = false -> cars h0 h -> Forall (in_heap h0) rs ->
  seg h l K ks cp -> K <> [] -> seg h cp R rs t -> NoDup (K ++ R) -> p < length h ->
  (if b : bool then exists K' ks' y, K = K' ++ [p] /\ ks = ks' ++ [y] else ~ In p (K ++ R)) ->
  exists h2 K2, alist_deletex_loop eqm fuel h obj l (Ptr p) cp = Ok (h2, l) /\ seg h2 l K2 (ks ++ adx (hitb h0 eqm obj) b rs) t /\
    incl K2 (K ++ R) /\ changed_only (p :: K ++ R) h h2 /\ length h2 = length h.
Proof.
  intros h0. induction fuel as [|fuel IH]; intros h obj l K ks p cp R rs t b L Pt Cr Fi Sk Ne S N Lp Hb; [lia|]. cbn [alist_deletex_loop].
  destruct (pairp cp) eqn:Pc; cbn [negb].
  - destruct (seg_inv_pair _ _ _ _ _ S Pc Pt) as (a & x & d & B & ys & -> & -> & -> & En & S1). inversion Fi as [|? ? Ix Fr]; subst. cbn [length] in L.
    rewrite (car_at _ _ _ _ En). cbn [bind]. rewrite (alist_hit_cars h0 h obj x Cr Ix). cbn [bind]. rewrite (cdr_at _ _ _ _ En). cbn [bind adx].
    assert (La : a < length h) by (apply nth_error_Some; congruence).
    assert (Nn : ~ In a (K ++ B) /\ NoDup (K ++ B)) by (split; [now apply NoDup_remove_2 in N|now apply NoDup_remove_1 in N]). destruct Nn as [Na Nb].
    assert (Sx : seg h l (K ++ [a]) (ks ++ [x]) d) by (eapply seg_app; [exact Sk|]; econstructor; [exact En|constructor]).
    assert (Nx : NoDup ((K ++ [a]) ++ B)) by (rewrite <- app_assoc; exact N).
    assert (Kne : K ++ [a] <> []) by (destruct K; discriminate).
    destruct (hitb h0 eqm obj x) eqn:Hx; cbn [nullp].
    + destruct b.
      * destruct Hb as (K' & ks' & y & -> & ->). destruct (seg_snoc_inv _ _ _ _ _ _ _ Sk) as (_ & Sk' & Ep & _).
        rewrite (set_cdr_at _ _ _ _ _ Ep). cbn [bind].
        assert (Pa : p <> a) by (intros ->; apply Na, in_app_iff; left; apply in_app_iff; right; left; auto).
        assert (NpB : ~ In p B /\ ~ In p K').
        { rewrite <- app_assoc in Nb. cbn [app] in Nb. apply NoDup_remove_2 in Nb. rewrite in_app_iff in Nb. tauto. }
        erewrite cdr_at by (rewrite store_other by auto; exact En). cbn [bind].
        destruct (IH (store p (y, d) h) obj l (K' ++ [p]) (ks' ++ [y]) a d B ys t false) as (h2 & K2 & E & S2 & I2 & Cg & Le); auto; try lia.
        -- eapply cars_store; eauto.
        -- eapply seg_set_last; eauto. tauto.
        -- apply seg_store; auto. tauto.
        -- rewrite store_len. lia.
        -- exists h2, K2. split; auto. split; auto. rewrite store_len in Le.
           split; [intros q Hq; apply I2 in Hq; rewrite !in_app_iff in *; cbn in *; tauto|]. split; auto.
           eapply changed_trans; [rewrite store_len; reflexivity|apply changed_store; left; auto|]. eapply changed_incl; [|exact Cg].
           intros q Hq. cbn in Hq. cbn. rewrite !in_app_iff in *. cbn in *. tauto.
      * destruct (nth_error h p) as [[yp dp]|] eqn:Ep; [|apply nth_error_None in Ep; lia].
        rewrite (set_cdr_at _ _ _ _ _ Ep). cbn [bind].
        assert (Pa : p <> a) by (intros ->; apply Hb, in_app_iff; right; left; auto).
        assert (NpB : ~ In p B /\ ~ In p K) by (rewrite in_app_iff in Hb; cbn in Hb; tauto).
        erewrite cdr_at by (rewrite store_other by auto; exact En). cbn [bind].
        destruct (IH (store p (yp, d) h) obj l (K ++ [a]) (ks ++ [x]) a d B ys t true) as (h2 & K2 & E & S2 & I2 & Cg & Le); auto; try lia.
        -- eapply cars_store; eauto.
        -- apply seg_store; auto. rewrite in_app_iff. cbn. intros [|[|[]]]; [tauto|congruence].
        -- apply seg_store; auto. tauto.
        -- rewrite store_len. lia.
        -- eauto.
        -- exists h2, K2. split; auto. rewrite <- app_assoc in S2. split; auto. rewrite store_len in Le.
           split; [intros q Hq; apply I2 in Hq; rewrite !in_app_iff in *; cbn in *; tauto|]. split; auto.
           eapply changed_trans; [rewrite store_len; reflexivity|apply changed_store; left; auto|]. eapply changed_incl; [|exact Cg].
           intros q Hq. cbn in Hq. cbn. rewrite !in_app_iff in *. cbn in *. tauto.
    + destruct (IH h obj l (K ++ [a]) (ks ++ [x]) a d B ys t true) as (h2 & K2 & E & S2 & I2 & Cg & Le); auto; try lia.
      { eauto. }
      exists h2, K2. split; auto. rewrite <- app_assoc in S2. split; auto.
      split; [intros q Hq; apply I2 in Hq; rewrite !in_app_iff in *; cbn in *; tauto|]. split; auto.
      eapply changed_incl; [|exact Cg]. intros q Hq. cbn in Hq. cbn. rewrite !in_app_iff in *. cbn in *. tauto.
  - destruct (seg_inv_nonpair _ _ _ _ _ S Pc) as (-> & -> & ->). exists h, K. cbn [adx]. rewrite !app_nil_r in *. split; auto. split; auto.
    split; [intros q Hq; auto|]. split; auto. apply changed_refl.
Qed.
Lemma adx_nil_ok : forall fuel h obj cp R rs t, seg h cp R rs t -> pairp t = false -> Forall (in_heap h) rs -> length R < fuel -> 
  exists h2 r K2, alist_deletex_loop eqm fuel h obj cp Nil cp = Ok (h2, r) /\ seg h2 r K2 (adx (hitb h eqm obj) true (drop_hits (hitb h eqm obj) rs)) t /\
    incl K2 R /\ changed_only R h h2 /\ length h2 = length h.
Proof.
  induction fuel as [|fuel IH]; intros h obj cp R rs t S Pt Fi L; [lia|]. cbn [alist_deletex_loop].
  pose proof (seg_nodup _ _ _ _ _ S Pt) as N.
  destruct (pairp cp) eqn:Pc; cbn [negb].
  - destruct (seg_inv_pair _ _ _ _ _ S Pc Pt) as (a & x & d & B & ys & -> & -> & -> & En & S1). inversion Fi as [|? ? Ix Fr]; subst. cbn [length] in L.
    rewrite (car_at _ _ _ _ En). cbn [bind]. rewrite (alist_hit_cars h h obj x (cars_refl h) Ix). cbn [bind]. rewrite (cdr_at _ _ _ _ En). cbn [bind drop_hits].
    destruct (hitb h eqm obj x) eqn:Hx; cbn [nullp].
    + destruct (IH h obj d B ys t) as (h2 & r & K2 & E & S2 & I2 & Cg & Le); auto; try lia. exists h2, r, K2. split; auto. split; auto.
      split; [intros q Hq; right; auto|]. split; auto. eapply changed_incl; [|exact Cg]. intros q Hq; right; auto.
    + cbn [adx]. rewrite Hx. destruct (adx_loop_ok h fuel h obj (Ptr a) [a] [x] a d B ys t true) as (h2 & K2 & E & S2 & I2 & Cg & Le); auto; try lia; try discriminate.
      * apply cars_refl.
      * econstructor; [exact En|constructor].
      * apply nth_error_Some. congruence.
      * exists [], [], x. auto.
      * exists h2, (Ptr a), K2. split; auto. split; auto. split; auto. split; auto. eapply changed_incl; [|exact Cg]. intros q Hq. cbn in Hq. cbn. tauto.
  - destruct (seg_inv_nonpair _ _ _ _ _ S Pc) as (-> & -> & ->). exists h, t, []. split; auto. split; [constructor|]. split; [intros b []|]. split; auto. apply changed_refl.
Qed.
(** no two adjacent hits after the leading run: the result is as specified *)
Fixpoint no_adjacent (hit : val -> bool) (xs : list val) : bool :=
  match xs with
  | x :: ((y :: _) as r) => negb (hit x && hit y) && no_adjacent hit r
  | _ => true
  end.
Lemma adx_filter : forall hit xs b, no_adjacent hit xs = true -> (b = false -> match xs with x :: _ => hit x = false | [] => True end) ->
  adx hit b xs = filter (fun x => negb (hit x)) xs.
Proof.
  induction xs as [|x xs IH]; intros b Hn Hb; auto. cbn [adx filter].
  assert (Hn' : no_adjacent hit xs = true). { cbn [no_adjacent] in Hn. destruct xs; auto. apply andb_true_iff in Hn. tauto. }
  destruct (hit x) eqn:Hx; cbn [negb].
  - destruct b; [|specialize (Hb eq_refl); discriminate]. apply IH; auto. intros _. destruct xs as [|y xs]; auto.
    cbn [no_adjacent] in Hn. rewrite Hx in Hn. destruct (hit y); auto.
  - f_equal. apply IH; auto. discriminate.
Qed.
Lemma drop_hits_filter : forall hit xs, filter (fun x => negb (hit x)) (drop_hits hit xs) = filter (fun x => negb (hit x)) xs.
Proof. induction xs as [|x xs IH]; cbn; auto. destruct (hit x) eqn:E; cbn; auto. rewrite E. reflexivity. Qed.
End Alist.

(** ** first occurrences *)
Section Firsts.
Variable eqm : val -> val -> bool.
Hypothesis e_refl : forall x, eqm x x = true.
Hypothesis e_sym : forall x y, eqm x y = eqm y x.
Hypothesis e_trans : forall x y z, eqm x y = true -> eqm y z = true -> eqm x z = true.
Lemma firsts_ext : forall xs s1 s2, (forall x, existsb (fun y => eqm y x) s1 = existsb (fun y => eqm y x) s2) -> firsts eqm s1 xs = firsts eqm s2 xs.
Proof.
  induction xs as [|x xs IH]; intros s1 s2 H; auto. cbn [firsts]. rewrite H.
  rewrite (IH (x :: s1) (x :: s2)) by (intro z; cbn; now rewrite H). reflexivity.
Qed.
Lemma dedup_firsts : forall xs kept seen, (forall x, existsb (fun y => eqm y x) seen = existsb (eqm x) kept) -> dedup eqm kept xs = kept ++ firsts eqm seen xs.
Proof.
  induction xs as [|x xs IH]; intros kept seen H; cbn [dedup firsts].
  - now rewrite app_nil_r.
  - rewrite <- H. destruct (existsb (fun y => eqm y x) seen) eqn:E.
    + apply IH. intro z. cbn [existsb]. rewrite H. destruct (eqm x z) eqn:Ex; auto. cbn [orb]. symmetry.
      rewrite H in E. apply existsb_exists in E. destruct E as (k & Ik & Ek). apply existsb_exists. exists k. split; auto.
      rewrite e_sym in Ex. eapply e_trans; eauto.
    + rewrite (IH _ (x :: seen)).
      * rewrite <- app_assoc. reflexivity.
      * intro z. cbn [existsb]. rewrite existsb_app. cbn [existsb]. rewrite orb_false_r, H, orb_comm. f_equal. apply e_sym.
Qed.
Lemma firsts_filter : forall xs seen, firsts eqm seen xs = firsts eqm [] (filter (fun x => negb (existsb (fun y => eqm y x) seen)) xs).
Proof.
  intros xs seen.
  assert (G : forall xs s1 s2, firsts eqm (s1 ++ s2) xs = firsts eqm s2 (filter (fun x => negb (existsb (fun y => eqm y x) s1)) xs)).
  { induction xs0 as [|x xs0 IH]; intros s1 s2; auto. cbn [filter firsts]. rewrite existsb_app.
    destruct (existsb (fun y => eqm y x) s1) eqn:E; cbn [negb orb].
    - rewrite <- IH. apply firsts_ext. intro z. cbn [existsb]. rewrite existsb_app.
      destruct (eqm x z) eqn:Ex; auto. cbn [orb]. apply existsb_exists in E. destruct E as (k & Ik & Ek).
      assert (X : existsb (fun y => eqm y z) s1 = true) by (apply existsb_exists; exists k; split; auto; eapply e_trans; eauto). rewrite X. reflexivity.
    - cbn [firsts]. destruct (existsb (fun y => eqm y x) s2) eqn:E2; rewrite <- IH; [|f_equal]; apply firsts_ext; intro z; cbn [existsb]; rewrite !existsb_app; cbn [existsb];
      destruct (eqm x z), (existsb (fun y => eqm y z) s1), (existsb (fun y => eqm y z) s2); reflexivity. }
  rewrite <- (app_nil_r seen) at 1. apply G.
Qed.
Lemma nodups_firsts : forall n xs, length xs <= n -> nodups eqm n xs = firsts eqm [] xs.
Proof.
  induction n as [|n IH]; intros [|x xs] L; cbn [nodups firsts length existsb] in *; auto; try lia. f_equal.
  rewrite firsts_filter. rewrite IH by (pose proof (filter_len (other eqm x) xs); lia). f_equal. apply filter_ext. intro z. unfold other. cbn. now rewrite orb_false_r.
Qed.
End Firsts.
