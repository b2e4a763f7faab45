(** C13, C14: the list primitives, for every heap of pairs and every list in it.
    [closed h]: no dangling pointers; [in_heap h v]: [v] does not dangle. *)
From Coq Require Import List Bool ZArith Lia.
From Verif Require Import Outcome ListModel ListSpec ListProofs ListProofs2 ListProofs3 ListProofs4 ListProofs5.
Import ListNotations.
Ltac Zify.zify_post_hook ::= idtac.

Lemma not_pair_nil : ~ is_pair Nil. Proof. intros (a & E); discriminate. Qed.
Lemma list_of_not_circular : forall h v xs t, closed h -> in_heap h v -> list_of h v xs t -> ~ circular h v.
Proof. intros h v xs t C I L X. apply (circular_endless h v C I) in X. eapply finite_not_endless; [|exact X]. apply (list_of_finite _ _ _ _ L). Qed.
Lemma list_of_short : forall h v xs t, list_of h v xs t -> length xs <= length h.
Proof. intros h v xs t [Ht (A & S)]. rewrite <- (seg_len _ _ _ _ _ S). eapply seg_short; eauto. now apply pairp_false. Qed.

Lemma forall2_impl : forall {T U} (P Q : T -> U -> Prop) l m, (forall a b, P a b -> Q a b) -> Forall2 P l m -> Forall2 Q l m.
Proof. intros T U P Q l m H F. induction F; constructor; auto. Qed.

(** ** C13 *)
(** Every value is a proper list, a dotted list (a non-list being one without
    elements) or a circular list; length, length+, proper-list?, dotted-list? and
    circular-list? terminate on all of them and say which. *)
Theorem list_classification : forall h v, closed h -> in_heap h v ->
  (exists xs, proper h v xs /\ scm_length h v = Ok (Z.of_nat (length xs)) /\ length_plus h v = Ok (Some (Z.of_nat (length xs)))
     /\ proper_list_p h v = Ok true /\ dotted_list_p h v = Ok false /\ circular_list_p h v = Ok false)
  \/ (exists xs t, list_of h v xs t /\ t <> Nil /\ scm_length h v = Err /\ length_plus h v = Ok (Some (Z.of_nat (length xs)))
     /\ proper_list_p h v = Ok false /\ dotted_list_p h v = Ok true /\ circular_list_p h v = Ok false)
  \/ (circular h v /\ scm_length h v = Err /\ length_plus h v = Ok None
     /\ proper_list_p h v = Ok false /\ dotted_list_p h v = Ok false /\ circular_list_p h v = Ok true).
Proof.
  intros h v C I. unfold scm_length, length_plus, proper_list_p, dotted_list_p, circular_list_p.
  destruct (length2_ok h C v false I) as [(n & Ln & F & E)|(Ee & E)]; destruct (length2_ok h C v true I) as [(m & Lm & F' & E')|(Ee' & E')];
    try (exfalso; eapply finite_not_endless; eauto; fail).
  - rewrite (finite_unique _ _ _ _ F' F) in *. rewrite E, E'. destruct (finite_list_of h v n C I F) as (xs & Lx & <-).
    unfold len_answer. rewrite orb_true_r, orb_false_r. cbn [bind]. destruct (nullp (ncdr h (length xs) v)) eqn:Nt.
    + left. exists xs. assert (Et : ncdr h (length xs) v = Nil) by (destruct (ncdr h (length xs) v); auto; discriminate). rewrite Et in Lx.
      rewrite (proj2 (Z.ltb_ge _ _)), (proj2 (Z.leb_le _ _)), !(proj2 (Z.eqb_neq _ _)) by lia. auto 8.
    + right; left. exists xs, (ncdr h (length xs) v). split; auto. split; [intros X; rewrite X in Nt; discriminate|]. cbn.
      rewrite (proj2 (Z.ltb_ge _ _)) by lia. auto 8.
  - right; right. rewrite E, E'. split; [now apply circular_endless|]. cbn. auto 8.
Qed.
(** the three cases exclude each other and the elements are determined *)
Theorem list_shape_unique : forall h v xs t, closed h -> in_heap h v -> list_of h v xs t ->
  ~ circular h v /\ forall ys u, list_of h v ys u -> ys = xs /\ u = t.
Proof.
  intros h v xs t C I L. split; [eapply list_of_not_circular; eauto|]. intros ys u L2.
  destruct (list_of_finite _ _ _ _ L) as [F1 E1]. destruct (list_of_finite _ _ _ _ L2) as [F2 E2].
  pose proof (finite_unique _ _ _ _ F1 F2) as El. destruct L as [_ (A & S)], L2 as [_ (B & S2)].
  split; [|congruence]. rewrite (seg_elts _ _ _ _ _ S), (seg_elts _ _ _ _ _ S2). congruence.
Qed.
Lemma elength_shape : forall h v e, closed h -> in_heap h v -> elength h v e -> eshape h v e.
Proof.
  intros h v [n|] C I H; cbn in *; [|now apply circular_endless].
  destruct H as (xs & t & L & <-). split; [apply (list_of_finite _ _ _ _ L)|]. destruct L as [Ht (A & S)]. rewrite <- (seg_len _ _ _ _ _ S). eapply seg_short; eauto. now apply pairp_false.
Qed.
(** length<? and friends between lists: circular lists are longer than all others and
    equal to each other; only pairs are counted *)
Theorem length_compare_lists : forall h v1 v2 e1 e2, closed h -> in_heap h v1 -> in_heap h v2 -> elength h v1 e1 -> elength h v2 e2 ->
  length_cmp_lis h v1 v2 = Ok (ecompare e1 e2).
Proof.
  intros h v1 v2 e1 e2 C I1 I2 H1 H2. unfold length_cmp_lis.
  apply (length_cmp_lis_ok h C v1 v2 e1 e2 I1 I2 (elength_shape _ _ _ C I1 H1) (elength_shape _ _ _ C I2 H2) (S (length h)) 0 false false); auto; try lia.
  - destruct e1; cbn; auto. lia.
  - destruct e2; cbn; auto. lia.
  - now apply met_init.
  - now apply met_init.
Qed.
(** ... and between a list and an integer, for integers below 2^61 *)
Theorem length_compare_int_partial : forall h v e k, closed h -> in_heap h v -> elength h v e -> (k < 2 ^ 61)%Z ->
  length_cmp_int h v k = Ok (zcompare e k).
Proof.
  intros h v e k C I H Hk. unfold length_cmp_int. destruct (Z.ltb_spec k 0).
  - destruct e as [n|]; cbn; auto. destruct (Z.compare_spec (Z.of_nat n) k); try lia. reflexivity.
  - destruct (Z.ltb_spec k (2 ^ 61)); [|lia]. unfold length_cmp_k.
    pose proof (length_cmp_k_ok h C v e I (elength_shape _ _ _ C I H) (S (length h)) 0 k ltac:(lia)) as X.
    rewrite Z.add_0_r in X. apply X; [destruct e; cbn; auto; lia|lia|now apply met_init].
Qed.
(** for larger integers a dotted list counts as longer *)
Theorem length_compare_int_refuted : exists h v e k, closed h /\ in_heap h v /\ elength h v e /\ length_cmp_int h v k <> Ok (zcompare e k).
Proof.
  exists [(Atom 1, Atom 2)], (Ptr 0), (Some 1), (2 ^ 61)%Z. split; [repeat constructor|]. split; [cbn; lia|]. split.
  - exists [Atom 1], (Atom 2). split; auto. split; [intros (a & E); discriminate|]. exists [0]. econstructor; [reflexivity|constructor].
  - vm_compute. discriminate.
Qed.
Theorem length_compare_bignum : forall h v e k, closed h -> in_heap h v -> elength h v e -> (2 ^ 61 <= k)%Z -> (Z.of_nat (length h) < k)%Z ->
  (forall xs t, list_of h v xs t -> t = Nil) -> length_cmp_int h v k = Ok (zcompare e k).
Proof.
  intros h v e k C I H Hk Hh Pr. unfold length_cmp_int. destruct (Z.ltb_spec k 0); [lia|]. destruct (Z.ltb_spec k (2 ^ 61)); [lia|].
  unfold length_cmp_big. destruct (length2_ok h C v false I) as [(n & Ln & F & E)|(Ee & E)]; rewrite E.
  - destruct (finite_list_of h v n C I F) as (xs & Lx & <-). rewrite (Pr _ _ Lx) in *. cbn [len_answer nullp orb bind].
    destruct e as [m|]; [|exfalso; eapply list_of_not_circular; eauto]. destruct H as (ys & u & Ly & <-).
    destruct (list_shape_unique _ _ _ _ C I Lx) as (_ & U). destruct (U _ _ Ly) as [-> _]. pose proof (list_of_short _ _ _ _ Lx).
    destruct (Z.ltb_spec (Z.of_nat (length xs)) 0); [lia|]. cbn. destruct (Z.compare_spec (Z.of_nat (length xs)) k); try lia. reflexivity.
  - cbn. destruct e as [m|]; auto. exfalso. destruct H as (xs & t & L & _). eapply list_of_not_circular; eauto. now apply circular_endless.
Qed.
(** num-pairs counts the pairs of the spine, each once, also for circular lists *)
Theorem num_pairs_counts : forall h v, closed h -> in_heap h v ->
  exists addrs, NoDup addrs /\ (forall a, In a addrs <-> spine_pair h v a) /\ num_pairs h v = Ok (Z.of_nat (length addrs)).
Proof.
  intros h v C I. unfold num_pairs. destruct (finite_or_endless h v C I) as [(n & Ln & F)|E].
  - destruct (finite_list_of h v n C I F) as (xs & [Ht (A & S)] & <-). pose proof (proj2 (pairp_false _) Ht) as Pt.
    exists A. split; [eapply seg_nodup; eauto|]. split.
    + intros a. split.
      * intro Ha. apply in_split in Ha. destruct Ha as (A1 & A2 & ->).
        destruct (seg_take _ _ _ _ _ (length A1) S) as (u & S1 & S2); [rewrite app_length; lia|].
        rewrite firstn_app, Nat.sub_diag, firstn_all, app_nil_r in S1. rewrite skipn_app, Nat.sub_diag, skipn_all in S2. cbn in S2. inversion S2; subst. exists A1, (firstn (length A1) xs). exact S1.
      * intros (B & ys & Sb). destruct (le_lt_dec (length B) (length A)) as [L|L].
        -- destruct (seg_take _ _ _ _ _ (length B) S L) as (u & S1 & S2).
           pose proof (seg_ncdr _ _ _ _ _ S1) as X1. pose proof (seg_ncdr _ _ _ _ _ Sb) as X2. rewrite firstn_length, Nat.min_l in X1 by auto.
           rewrite X2 in X1. subst u. rewrite <- (firstn_skipn (length B) A). apply in_app_iff. right. inversion S2 as [u Eu|]; subst.
           ++ exfalso. match goal with H : Ptr a = _ |- _ => rewrite <- H in Pt; discriminate end.
           ++ left; auto.
        -- exfalso. pose proof (seg_ncdr _ _ _ _ _ S) as X1. pose proof (seg_pair _ _ _ _ _ (length A) Sb L) as X2. rewrite X1 in X2. congruence.
    + rewrite (seg_len _ _ _ _ _ S). apply (num_pairs_finite h C v (length xs) I F (Datatypes.S (length h)) 0); lia.
  - destruct (meet_odd h C v I E) as (m & Lm & M). rewrite (num_pairs_endless h C v m I E M (S (length h)) 0) by lia.
    destruct (count_circle_ok h C v I E (S (length h)) 0 [] (NoDup_nil _) eq_refl ltac:(lia) ltac:(lia)) as (p & _ & Lp & R & N & X).
    change (ncdr h 0 v) with v in R. rewrite R.
    destruct (seg_build h p v C I) as (A & xs & La & S); [intros; apply E|].
    assert (EA : map (fun i => ncdr h i v) (seq 0 p) = map Ptr A).
    { apply nth_ext with (d := Nil) (d' := Nil); rewrite !map_length, seq_length; auto. intros k Hk.
      rewrite (nth_indep _ Nil (ncdr h 0 v)) by (rewrite map_length, seq_length; auto). rewrite (map_nth (fun i => ncdr h i v)), seq_nth by auto. cbn [Nat.add].
      rewrite (nth_indep _ Nil (Ptr 0)) by (rewrite map_length; lia). rewrite map_nth. eapply seg_nth; eauto. apply nth_error_nth'. lia. }
    rewrite EA in N, X.
    assert (Per : forall k, In (ncdr h k v) (map Ptr A)).
    { assert (Hp : p <> 0). { intros ->. destruct A; [|discriminate La]. destruct X. }
      induction k as [k IHk] using lt_wf_ind. destruct (lt_dec k p) as [Lk|Lk].
      - rewrite <- EA. apply in_map_iff. exists k. split; auto. apply in_seq. lia.
      - destruct (in_map_iff (fun i => ncdr h i v) (seq 0 p) (ncdr h p v)) as [Y _]. rewrite EA in Y. destruct (Y X) as (j & Ej & Ij). apply in_seq in Ij.
        replace k with ((k - p) + p) by lia. rewrite ncdr_add, <- Ej, <- ncdr_add. apply IHk. lia. }
    exists A. split; [|split].
    + clear - N. induction A as [|a A IH]; cbn in N; [constructor|]. inversion N; subst. constructor; auto. intro. apply H1. apply in_map_iff. eauto.
    + intros a. split.
      * intro Ha. apply in_split in Ha. destruct Ha as (A1 & A2 & ->).
        destruct (seg_take _ _ _ _ _ (length A1) S) as (u & S1 & S2); [rewrite app_length; lia|].
        rewrite firstn_app, Nat.sub_diag, firstn_all, app_nil_r in S1. rewrite skipn_app, Nat.sub_diag, skipn_all in S2. cbn in S2. inversion S2; subst. exists A1, (firstn (length A1) xs). exact S1.
      * intros (B & ys & Sb). pose proof (seg_ncdr _ _ _ _ _ Sb) as X2. specialize (Per (length B)). rewrite X2 in Per. apply in_map_iff in Per. destruct Per as (q & Eq & Iq). congruence.
    + now rewrite La.
Qed.
Theorem last_pair_correct : forall h v, closed h -> in_heap h v ->
  (forall xs x t, list_of h v (xs ++ [x]) t -> exists a, last_pair h v = Ok (Ptr a) /\ nth_error h a = Some (x, t))
  /\ (circular h v -> last_pair h v = Err) /\ (~ is_pair v -> last_pair h v = Err).
Proof.
  intros h v C I. split; [|split].
  - intros xs x t [Ht (A & S)].
    assert (Ne : A <> []). { intros ->. apply seg_len in S. rewrite app_length in S. cbn in S. lia. }
    destruct (seg_last_split _ _ _ _ _ S Ne) as (B & b & ys & y & -> & Ey). rewrite Ey in S. exists b.
    rewrite (last_pair_seg _ _ _ _ _ _ _ C S (proj2 (pairp_false _) Ht)). split; auto.
    apply app_inj_tail in Ey. destruct Ey as [_ <-]. destruct (seg_snoc_inv _ _ _ _ _ _ _ S) as (_ & _ & Q & _). exact Q.
  - intro X. apply (circular_endless h v C I) in X. destruct (meet h v C I X) as (m & M1 & M2 & M3). unfold last_pair.
    pose proof (X 0) as P0. change (pairp v = true) in P0. rewrite P0. apply (last_pair_endless h C v m I X M3 (S (length h)) 0); lia.
  - intro X. unfold last_pair. rewrite (proj2 (pairp_false _) X). reflexivity.
Qed.
Example list_classification_nonvacuous :
  let h := [(Atom 1, Ptr 1); (Atom 2, Ptr 0); (Atom 3, Ptr 3); (Atom 4, Nil)] in
  closed h /\ circular_list_p h (Ptr 0) = Ok true /\ scm_length h (Ptr 2) = Ok 2%Z /\ length_cmp_lis h (Ptr 0) (Ptr 2) = Ok 1%Z /\ num_pairs h (Ptr 1) = Ok 2%Z.
Proof. cbv zeta. split; [unfold closed; repeat constructor; cbn; lia|]. vm_compute. auto. Qed.

(** ** C14: non-destructive operations.  [preserved h h']: no existing pair is changed. *)
Theorem list_copy_correct : forall h v, closed h -> in_heap h v ->
  (forall xs t, list_of h v xs t -> exists h' r addrs, copy_list h v = Ok (h', r) /\ closed h' /\ preserved h h'
      /\ seg h' r addrs xs t /\ Forall (fun a => length h <= a) addrs)
  /\ (circular h v -> copy_list h v = Err).
Proof.
  intros h v C I. split.
  - intros xs t L. destruct (list_of_finite _ _ _ _ L) as [F E]. pose proof (list_of_short _ _ _ _ L) as Ln.
    destruct (copy_list_finite h C v _ I F Ln) as (h' & r & A & E1 & C1 & P1 & S1 & F1 & _). destruct L as [Ht (B & S)]. rewrite <- (seg_elts _ _ _ _ _ S), E in S1. eauto 8.
  - intro X. apply copy_list_endless; auto. now apply circular_endless.
Qed.
(** entries of [ys] are fresh copies of the pairs of [xs]; other elements are kept *)
Definition entry_copied (h h' : heap) (x y : val) : Prop :=
  match x with
  | Ptr a => exists b, y = Ptr b /\ length h <= b /\ nth_error h' b = nth_error h a
  | _ => y = x
  end.
Theorem alist_copy_correct : forall h v, closed h -> in_heap h v ->
  (forall xs, proper h v xs -> exists h' r ys addrs, alist_copy h v = Ok (h', r) /\ closed h' /\ preserved h h'
      /\ seg h' r addrs ys Nil /\ Forall (fun a => length h <= a) addrs /\ Forall2 (entry_copied h h') xs ys)
  /\ (forall xs t, xs <> [] -> t <> Nil -> list_of h v xs t -> alist_copy h v = Err)
  /\ (circular h v -> alist_copy h v = Err).
Proof.
  intros h v C I.
  assert (Fin : forall xs t, xs <> [] -> list_of h v xs t -> exists h1 s1 l1 ys, alist_copy_loop (S (length h)) h Nil Nil v v = Ok (h1, s1, t) /\ build h h1 s1 l1 ys /\ copied h h1 l1 xs ys /\ pairp v = true).
  { intros xs t Ne L. destruct (list_of_finite _ _ _ _ L) as [F E]. pose proof (list_of_short _ _ _ _ L) as Ln.
    destruct (acopy_loop_finite h C v _ I F (S (length h)) 0 h Nil Nil []) as (h1 & s1 & l1 & ys & E1 & B1 & Cp); try lia.
    { now apply build_init. } { constructor. }
    change (ncdr h (2 * 0) v) with v in E1. change (ncdr h 0 v) with v in E1. rewrite E in E1. destruct L as [Ht (A & S)]. rewrite <- (seg_elts _ _ _ _ _ S) in Cp.
    exists h1, s1, l1, ys. split; auto. split; auto. split; auto. inversion S; subst; auto. }
  split; [|split].
  - intros xs L. unfold alist_copy. destruct xs as [|x xs].
    + destruct L as [_ (A & S)]. inversion S; subst. exists h, Nil, [], []. cbn. split; auto. split; auto. split; [apply preserved_refl|]. split; [constructor|]. split; constructor.
    + destruct (Fin (x :: xs) Nil ltac:(discriminate) L) as (h1 & s1 & l1 & ys & E1 & B1 & Cp & Pv). rewrite Pv, E1. cbn [negb bind nullp].
      destruct (build_seg _ _ _ _ _ B1) as (A & S & Fa & _). exists h1, s1, ys, A. split; auto. split; [apply B1|]. split; [apply B1|]. split; auto. split; auto.
      unfold copied in Cp. eapply forall2_impl; [|exact Cp]. intros a b [Ha _]. unfold acopy_elt in Ha. unfold entry_copied. destruct a as [|z|a]; cbn [pairp] in Ha; auto.
      destruct Ha as (c & k & w & -> & Lc & Ec & En). exists c. split; auto. split; auto. rewrite En. unfold cell in Ec. destruct (nth_error h a); cbn in Ec; congruence.
  - intros xs t Ne Nt L. destruct (Fin xs t Ne L) as (h1 & s1 & l1 & ys & E1 & _ & _ & Pv). unfold alist_copy. rewrite Pv, E1. cbn [negb bind]. destruct t; auto. congruence.
  - intros X. apply (circular_endless h v C I) in X. destruct (meet h v C I X) as (m & M1 & M2 & M3). unfold alist_copy. pose proof (X 0) as P0. change (pairp v = true) in P0. rewrite P0. cbn [negb].
    pose proof (acopy_loop_endless h C v m I X M3 (S (length h)) 0 h Nil Nil [] ltac:(lia) ltac:(lia) (build_init h C) (Forall2_nil _)) as Y.
    change (ncdr h (2 * 0) v) with v in Y. change (ncdr h 0 v) with v in Y. rewrite Y. reflexivity.
Qed.
Theorem make_list_correct : forall h n fill, closed h -> in_heap h fill ->
  ((n < 0)%Z -> make_list h n fill = Err) /\
  ((0 <= n)%Z -> exists h' r, make_list h n fill = Ok (h', r) /\ preserved h h' /\ proper h' r (repeat fill (Z.to_nat n))).
Proof.
  intros h n fill C I. unfold make_list. split; intro H.
  - rewrite (proj2 (Z.ltb_lt n 0)) by lia. reflexivity.
  - rewrite (proj2 (Z.ltb_ge n 0)) by lia. destruct (make_list_ok h fill (Z.to_nat n) h Nil Nil [] I (build_init h C)) as (h' & r & l & E & B).
    exists h', r. split; auto. split; [apply B|]. destruct (build_seg _ _ _ _ _ B) as (A & S & _). split; [apply not_pair_nil|eauto].
Qed.
Theorem append2_correct : forall h l obj, closed h -> in_heap h l -> in_heap h obj ->
  (forall xs, proper h l xs -> exists h' r addrs, append2 h l obj = Ok (h', r) /\ closed h' /\ preserved h h' /\ seg h' r addrs xs obj /\ Forall (fun a => length h <= a) addrs)
  /\ (forall xs t, t <> Nil -> list_of h l xs t -> append2 h l obj = Err).
Proof.
  intros h l obj C I Io. split.
  - intros xs L. destruct (list_of_finite _ _ _ _ L) as [F E]. pose proof (list_of_short _ _ _ _ L) as Ln.
    destruct (append2_ok h C l _ obj I Io F Ln E) as (h' & r & A & E1 & C1 & P1 & S1 & F1). destruct L as [_ (B & S)]. rewrite <- (seg_elts _ _ _ _ _ S) in S1. eauto 8.
  - intros xs t Nt L. destruct (list_of_finite _ _ _ _ L) as [F E]. pose proof (list_of_short _ _ _ _ L) as Ln. eapply (append2_dotted h C); eauto. congruence.
Qed.
(** append of any number of proper lists and a last object: a fresh copy of all but
    the last; anything that is not a proper list before the last is an error *)
Theorem append_correct : forall h, closed h -> forall (lists : list (val * list val)),
  Forall (fun p => proper h (fst p) (snd p)) lists ->
  (forall w, in_heap h w -> exists h' r addrs, append_ h (map fst lists ++ [w]) = Ok (h', r) /\ closed h' /\ preserved h h'
      /\ seg h' r addrs (concat (map snd lists)) w /\ Forall (fun a => length h <= a) addrs)
  /\ (forall bad y rest, in_heap h bad -> (forall xs, ~ proper h bad xs) -> append_ h (map fst lists ++ bad :: y :: rest) = Err).
Proof.
  intros h C lists F. split.
  - intros w Iw. exact (append_args_ok h C lists h Nil Nil [] w (build_init h C) Iw F).
  - intros bad y rest Ib Nb. exact (append_args_bad h C lists h Nil Nil [] bad y rest (build_init h C) Ib Nb F).
Qed.
Theorem reverse_correct : forall h l tail xs t, closed h -> in_heap h l -> in_heap h tail -> list_of h l xs t ->
  exists h' r addrs, reverse2 h l tail = Ok (h', r) /\ closed h' /\ preserved h h' /\ seg h' r addrs (rev xs) tail /\ Forall (fun a => length h <= a) addrs.
Proof.
  intros h l tail xs t C I It L. destruct (list_of_finite _ _ _ _ L) as [F E]. pose proof (list_of_short _ _ _ _ L) as Ln.
  destruct (reverse2_ok h C l _ tail I It F Ln) as (h' & r & A & E1 & C1 & P1 & S1 & F1). destruct L as [_ (B & S)]. rewrite <- (seg_elts _ _ _ _ _ S) in S1. eauto 8.
Qed.
Theorem list_tail_ref_correct : forall h l fallback,
  (forall addrs xs w, seg h l addrs xs w -> list_tail h l (Z.of_nat (length xs)) fallback = Ok w)
  /\ (forall xs t i x, list_of h l xs t -> nth_error xs i = Some x -> list_ref h l (Z.of_nat i) fallback = Ok x)
  /\ (forall xs t i, list_of h l xs t -> (i < 0 \/ Z.of_nat (length xs) < i)%Z -> list_tail h l i fallback = match fallback with Some v => Ok v | None => Err end)
  /\ (forall xs t i, list_of h l xs t -> (i < 0 \/ Z.of_nat (length xs) <= i)%Z -> list_ref h l i fallback = match fallback with Some v => Ok v | None => Err end).
Proof.
  intros h l fb. split; [|split; [|split]].
  - intros A xs w S. rewrite <- (seg_len _ _ _ _ _ S). now apply (list_tail_seg _ _ _ _ _ S).
  - intros xs t i x [_ (A & S)] E. assert (L : i < length xs) by (apply nth_error_Some; congruence). pose proof (seg_len _ _ _ _ _ S) as La.
    destruct (seg_take _ _ _ _ _ i S) as (u & S1 & S2); [lia|]. unfold list_ref. rewrite (proj2 (Z.ltb_ge _ _)), Nat2Z.id by lia.
    assert (Li : length (firstn i A) = i) by (rewrite firstn_length; lia). rewrite <- Li at 1. rewrite (list_tail_loop_seg _ _ _ _ _ S1). cbn [bind].
    assert (Ex : exists r, skipn i xs = x :: r).
    { clear - E. revert i E. induction xs as [|y xs IH]; intros [|i] E; try discriminate; cbn in *; [injection E as ->; eauto|auto]. }
    destruct Ex as (r & Er). rewrite Er in S2. inversion S2 as [|a ? d ? ? ? Ea Sd]; subst. cbn [pairp negb]. rewrite (car_at _ _ _ _ Ea). reflexivity.
  - intros xs t i [Ht (A & S)] H. pose proof (seg_len _ _ _ _ _ S) as La. unfold list_tail. destruct (Z.ltb_spec i 0); [reflexivity|].
    rewrite (list_tail_loop_past _ _ _ _ _ S (proj2 (pairp_false _) Ht)) by lia. reflexivity.
  - intros xs t i [Ht (A & S)] H. pose proof (seg_len _ _ _ _ _ S) as La. unfold list_ref. destruct (Z.ltb_spec i 0); [reflexivity|].
    destruct (Z.eq_dec i (Z.of_nat (length xs))) as [->|Ne].
    + rewrite Nat2Z.id, <- La, (list_tail_loop_seg _ _ _ _ _ S). cbn [bind]. rewrite (proj2 (pairp_false _) Ht). reflexivity.
    + rewrite (list_tail_loop_past _ _ _ _ _ S (proj2 (pairp_false _) Ht)) by lia. reflexivity.
Qed.
(** list-copy with a range (also through %list-range-copy) *)
Theorem list_range_copy_correct : forall h l xs t s e, closed h -> in_heap h l -> list_of h l xs t -> (0 <= s)%Z ->
  ((s <= e <= Z.of_nat (length xs))%Z -> exists h' r addrs, list_range_copy h l s e = Ok (h', r) /\ preserved h h'
     /\ seg h' r addrs (firstn (Z.to_nat (e - s)) (skipn (Z.to_nat s) xs)) Nil /\ Forall (fun a => length h <= a) addrs)
  /\ ((e < s \/ Z.of_nat (length xs) < e)%Z -> list_range_copy h l s e = Err).
Proof.
  intros h l xs t s e C I L Hs. destruct (list_of_finite _ _ _ _ L) as [F E]. destruct L as [Ht (A & S)]. pose proof (seg_elts _ _ _ _ _ S) as Ex.
  unfold list_range_copy, list_tail. rewrite (proj2 (Z.ltb_ge s 0)) by lia. pose proof F as [F1 F2]. split.
  - intros [H1 H2]. pose proof (list_tail_loop_ok h C l 0 (Z.to_nat s) I) as T. change (ncdr h 0 l) with l in T. rewrite T by (intros; apply F1; lia). cbn [bind or_fallback].
    rewrite (proj2 (Z.ltb_ge _ 0)) by lia. cbn [Nat.add].
    pose proof (range_copy_ok h C l (Z.to_nat s) I (Z.to_nat (e - s)) 0 h Nil Nil [] (build_init h C)) as X. rewrite Nat.add_0_r in X.
    destruct X as (h' & r & l' & E1 & B1). { intros q Hq. apply F1. lia. }
    rewrite E1. destruct (build_seg _ _ _ _ _ B1) as (B & Sb & Fb & _). exists h', r, B. split; auto. split; [apply B1|]. split; auto.
    cbn [app] in Sb. replace (firstn (Z.to_nat (e - s)) (skipn (Z.to_nat s) xs)) with (elts h l (Z.to_nat s) (Z.to_nat (e - s))); auto.
    rewrite Ex. replace (length xs) with (Z.to_nat s + (Z.to_nat (e - s) + (length xs - Z.to_nat e))) by lia. rewrite !elts_app.
    rewrite skipn_app, elts_len, Nat.sub_diag. cbn [skipn]. rewrite (skipn_all2 (elts h l 0 (Z.to_nat s))) by (rewrite elts_len; lia). cbn [app].
    rewrite firstn_app, elts_len, Nat.sub_diag. cbn [firstn]. rewrite app_nil_r, firstn_all2 by (rewrite elts_len; lia). reflexivity.
  - intros H. destruct (Z_le_gt_dec s (Z.of_nat (length xs))).
    + pose proof (list_tail_loop_ok h C l 0 (Z.to_nat s) I) as T. change (ncdr h 0 l) with l in T. rewrite T by (intros; apply F1; lia). cbn [bind or_fallback Nat.add].
      destruct (Z.ltb_spec (e - s) 0); auto. eapply (range_copy_short h C l (length xs) I F); [apply build_init; auto| |]; lia.
    + pose proof (list_tail_loop_short h C l (length xs) 0 (Z.to_nat s) I F ltac:(lia) ltac:(lia)) as T. change (ncdr h 0 l) with l in T. rewrite T. reflexivity.
Qed.
(** memq, memv, member: the tail that starts at the first equal element, or #f *)
Theorem member_correct : forall eqm h obj l xs t, closed h -> in_heap h l -> list_of h l xs t ->
  (Forall (fun x => eqm obj x = false) xs /\ member eqm h obj l = Ok (Atom 0))
  \/ exists pre x post r addrs, xs = pre ++ x :: post /\ Forall (fun y => eqm obj y = false) pre /\ eqm obj x = true
       /\ member eqm h obj l = Ok r /\ seg h l addrs pre r /\ list_of h r (x :: post) t.
Proof.
  intros eqm h obj l xs t C I L. destruct (list_of_finite _ _ _ _ L) as [F E]. pose proof (list_of_short _ _ _ _ L) as Ln. destruct L as [Ht (A & S)]. pose proof (seg_elts _ _ _ _ _ S) as Ex. pose proof (seg_len _ _ _ _ _ S) as La.
  assert (Nth : forall k, k < length xs -> nth_error xs k = Some (ncar h l k)).
  { intros k Hk. rewrite Ex at 1. unfold elts. rewrite nth_error_map. rewrite (nth_error_nth' _ 0) by (rewrite seq_length; lia). rewrite seq_nth by lia. reflexivity. }
  assert (Fa : forall k, (forall j, j < k -> eqm obj (ncar h l j) = false) -> k <= length xs -> Forall (fun x => eqm obj x = false) (firstn k xs)).
  { intros k H Hk. apply Forall_forall. intros x Hx. apply In_nth_error in Hx. destruct Hx as (j & Ej).
    assert (Hj : j < k) by (assert (j < length (firstn k xs)) by (apply nth_error_Some; congruence); rewrite firstn_length in *; lia).
    rewrite <- (firstn_skipn k xs) in Nth. specialize (Nth j). rewrite nth_error_app1 in Nth by (rewrite firstn_length; lia). rewrite firstn_skipn, Ej in Nth. assert (Ee : Some x = Some (ncar h l j)) by (apply Nth; lia). injection Ee as ->. auto. }
  destruct (member_loop_ok h C eqm l _ obj I F (Datatypes.S (length h)) 0) as [(k & Lk & Hk & Hj & R)|(Hn & R)]; try lia; change (ncdr h 0 l) with l in R; fold (member eqm h obj l) in R.
  - right. destruct (seg_take _ _ _ _ _ k S) as (u & S1 & S2); [lia|].
    assert (Eu : ncdr h k l = u). { rewrite <- (seg_ncdr _ _ _ _ _ S1). f_equal. rewrite firstn_length. lia. }
    assert (Es : skipn k xs = ncar h l k :: skipn (Datatypes.S k) xs).
    { specialize (Nth k Lk). revert Nth. clear. revert k. generalize (ncar h l). induction xs as [|y xs IH]; intros f [|k] N; try discriminate; cbn in *; [congruence|].
      destruct xs; [destruct k; discriminate|]. specialize (IH (fun j => f (Datatypes.S j)) k N). exact IH. }
    rewrite Es in S2. exists (firstn k xs), (ncar h l k), (skipn (Datatypes.S k) xs), u, (firstn k A). split; [rewrite <- Es; symmetry; apply firstn_skipn|].
    split; [apply Fa; auto; lia|]. split; auto. split; [congruence|]. split; auto. split; eauto.
  - left. split; auto. rewrite <- (firstn_all xs). apply Fa; auto.
Qed.
(** assq, assv, assoc: the first entry whose key is equal, or #f *)
Theorem assoc_correct : forall eqm h obj l xs, closed h -> in_heap h l -> proper h l xs ->
  assoc eqm h obj l = Ok (match find (key_is eqm h obj) xs with Some e => e | None => Atom 0 end).
Proof.
  intros eqm h obj l xs C I L. destruct (list_of_finite _ _ _ _ L) as [F E]. pose proof (list_of_short _ _ _ _ L) as Ln. destruct L as [_ (A & S)]. pose proof (seg_elts _ _ _ _ _ S) as Ex.
  unfold assoc. assert (Sh : nullp l || pairp l = true) by (inversion S; subst; auto). rewrite Sh. cbn [negb].
  assert (Fd : forall k, k <= length xs -> (forall j, j < k -> hitb h eqm obj (ncar h l j) = false) -> find (key_is eqm h obj) xs = find (key_is eqm h obj) (elts h l k (length xs - k))).
  { intros k Hk Hj. rewrite Ex at 1. replace (length xs) with (k + (length xs - k)) at 1 by lia. rewrite elts_app. cbn [Nat.add].
    assert (G : forall pre post, (forall x, In x pre -> hitb h eqm obj x = false) -> find (key_is eqm h obj) (pre ++ post) = find (key_is eqm h obj) post).
    { induction pre as [|x pre IHp]; intros post H; auto. cbn [app find]. change (key_is eqm h obj x) with (hitb h eqm obj x). rewrite H by (left; auto). apply IHp. intros; apply H; right; auto. }
    apply G. intros x Hx. unfold elts in Hx. apply in_map_iff in Hx. destruct Hx as (j & <- & Ij). apply in_seq in Ij. apply Hj. lia. }
  destruct (assoc_loop_ok h C eqm l _ obj I F (Datatypes.S (length h)) 0) as [(k & Lk & Hk & Hj & R)|(Hn & R)]; try lia; change (ncdr h 0 l) with l in R; rewrite R.
  - rewrite (Fd k) by (auto; lia). replace (length xs - k) with (Datatypes.S (length xs - Datatypes.S k)) by lia. unfold elts. cbn [seq map find].
    change (key_is eqm h obj (ncar h l k)) with (hitb h eqm obj (ncar h l k)). rewrite Hk. reflexivity.
  - rewrite (Fd (length xs)) by auto. rewrite Nat.sub_diag. reflexivity.
Qed.
Theorem delete_correct : forall eqm h obj l xs, closed h -> in_heap h l -> proper h l xs ->
  exists h' r, delete eqm h obj l = Ok (h', r) /\ closed h' /\ preserved h h' /\ proper h' r (filter (fun x => negb (eqm obj x)) xs).
Proof.
  intros eqm h obj l xs C I L. destruct (list_of_finite _ _ _ _ L) as [F E]. pose proof (list_of_short _ _ _ _ L) as Ln. destruct L as [_ (A & S)].
  destruct (delete_gen_ok h C (fun _ x => Ok (eqm obj x)) (eqm obj) (fun _ _ _ _ => eq_refl) l _ I F Ln E) as (h' & r & B & E1 & C1 & P1 & S1).
  rewrite <- (seg_elts _ _ _ _ _ S) in S1. exists h', r. split; auto. split; auto. split; auto. split; [apply not_pair_nil|exists B; exact S1].
Qed.
Theorem alist_delete_correct : forall eqm h obj l xs, closed h -> in_heap h l -> proper h l xs ->
  exists h' r, alist_delete eqm h obj l = Ok (h', r) /\ closed h' /\ preserved h h' /\ proper h' r (filter (fun x => negb (key_is eqm h obj x)) xs).
Proof.
  intros eqm h obj l xs C I L. destruct (list_of_finite _ _ _ _ L) as [F E]. pose proof (list_of_short _ _ _ _ L) as Ln. destruct L as [_ (A & S)].
  unfold alist_delete. assert (Sh : nullp l || pairp l = true) by (inversion S; subst; auto). rewrite Sh. cbn [negb].
  destruct (delete_gen_ok h C (alist_hit eqm obj) (hitb h eqm obj) (fun hh x P Ix => alist_hit_ok h C eqm hh obj x P Ix) l _ I F Ln E) as (h' & r & B & E1 & C1 & P1 & S1).
  rewrite <- (seg_elts _ _ _ _ _ S) in S1. exists h', r. split; auto. split; auto. split; auto. split; [apply not_pair_nil|exists B; exact S1].
Qed.
Theorem delete_duplicates_correct : forall eqm h l xs, equivalence eqm -> closed h -> in_heap h l -> proper h l xs ->
  exists h' r, delete_duplicates eqm h l = Ok (h', r) /\ closed h' /\ preserved h h' /\ proper h' r (firsts eqm [] xs).
Proof.
  intros eqm h l xs (Er & Es & Et) C I L. destruct (list_of_finite _ _ _ _ L) as [F E]. pose proof (list_of_short _ _ _ _ L) as Ln. destruct L as [_ (A & S)].
  destruct (dup_loop_ok h C eqm l _ I F (Datatypes.S (length h)) 0 h Nil Nil []) as (h1 & s1 & l1 & E1 & B1); try lia. { now apply build_init. }
  change (ncdr h 0 l) with l in E1. unfold delete_duplicates. rewrite E1, E. cbn [bind nullp negb andb].
  rewrite Nat.sub_0_r, <- (seg_elts _ _ _ _ _ S), (dedup_firsts eqm Es Et xs [] []) in B1 by reflexivity.
  exists h1, s1. split; auto. split; [apply B1|]. split; [apply B1|]. destruct (build_seg _ _ _ _ _ B1) as (B & Sb & _). split; [apply not_pair_nil|eauto].
Qed.

(** ** C14: destructive operations.  [changed_only addrs h h']: pairs other than those
    of the list given are untouched. *)
Theorem reversex_correct : forall h l tail addrs xs t, ~ is_pair t -> seg h l addrs xs t ->
  exists h' r, reverse2x h l tail = Ok (h', r) /\ seg h' r (rev addrs) (rev xs) tail /\ changed_only addrs h h' /\ length h' = length h.
Proof. intros h l tail A xs t Ht S. eapply reverse2x_ok; eauto. now apply pairp_false. Qed.
Theorem append2x_correct : forall h l obj addrs xs, seg h l addrs xs Nil ->
  exists h' r, append2x h l obj = Ok (h', r) /\ seg h' r addrs xs obj /\ changed_only addrs h h' /\ length h' = length h.
Proof. exact append2x_ok. Qed.
(** append! of lists that share no pair: [lists] gives each argument but the last with
    its pairs and elements *)
Theorem appendx_correct : forall h (lists : list (val * (list nat * list val))) w, closed h -> in_heap h w ->
  Forall (fun p => seg h (fst p) (fst (snd p)) (snd (snd p)) Nil) lists -> NoDup (concat (map (fun p => fst (snd p)) lists)) ->
  exists h' r, append_x h (map fst lists ++ [w]) = Ok (h', r)
    /\ seg h' r (concat (map (fun p => fst (snd p)) lists)) (concat (map (fun p => snd (snd p)) lists)) w
    /\ changed_only (concat (map (fun p => fst (snd p)) lists)) h h' /\ length h' = length h.
Proof. intros h lists w C Iw F N. apply (append_x_args_ok lists h Nil Nil [] [] w C Iw F N). auto. Qed.
Theorem deletex_correct : forall eqm h obj l addrs xs t, ~ is_pair t -> seg h l addrs xs t ->
  exists h' r kept, deletex eqm h obj l = Ok (h', r) /\ seg h' r kept (filter (fun x => negb (eqm obj x)) xs) t
    /\ incl kept addrs /\ changed_only addrs h h' /\ length h' = length h.
Proof.
  intros eqm h obj l A xs t Ht S. destruct (deletex_ok eqm h obj l A xs t S (proj2 (pairp_false _) Ht)) as (h' & r & K & E & S1 & I1 & _ & X). exists h', r, K. auto.
Qed.
Theorem delete_duplicatesx_correct : forall eqm h l addrs xs t, equivalence eqm -> ~ is_pair t -> seg h l addrs xs t ->
  exists h' kept, delete_duplicatesx eqm h l = Ok (h', l) /\ seg h' l kept (firsts eqm [] xs) t /\ incl kept addrs /\ changed_only addrs h h' /\ length h' = length h.
Proof.
  intros eqm h l A xs t (Er & Es & Et) Ht S. destruct (delete_duplicatesx_ok eqm h l A xs t S (proj2 (pairp_false _) Ht)) as (h' & K & E & S1 & X).
  rewrite (nodups_firsts eqm Et) in S1 by auto. exists h', K. auto.
Qed.
(** alist-delete! does what alist-delete does if no two adjacent entries have the key
    (entries at the head of the list excepted) ... *)
Theorem alist_deletex_partial : forall eqm h obj l addrs xs t, (t = Nil \/ addrs <> []) -> ~ is_pair t -> closed h -> in_heap h l -> seg h l addrs xs t ->
  no_adjacent (key_is eqm h obj) (drop_hits (key_is eqm h obj) xs) = true ->
  exists h' r kept, alist_deletex eqm h obj l = Ok (h', r) /\ seg h' r kept (filter (fun x => negb (key_is eqm h obj x)) xs) t
    /\ incl kept addrs /\ changed_only addrs h h' /\ length h' = length h.
Proof.
  intros eqm h obj l A xs t Hs Ht C I S Na. unfold alist_deletex.
  assert (Sh : nullp l || pairp l = true) by (inversion S; subst; auto; destruct Hs as [->|X]; auto; congruence). rewrite Sh. cbn [negb].
  pose proof (proj2 (pairp_false _) Ht) as Pt. pose proof (seg_short _ _ _ _ _ S Pt) as Ls.
  destruct (adx_nil_ok eqm (Datatypes.S (length h)) h obj l A xs t S Pt) as (h2 & r & K & E & S2 & X); try lia.
  - rewrite (seg_elts _ _ _ _ _ S). apply Forall_forall. intros x Hx. unfold elts in Hx. apply in_map_iff in Hx. destruct Hx as (k & <- & _). now apply ncar_in.
  - change (hitb h eqm obj) with (key_is eqm h obj) in S2. rewrite adx_filter in S2 by (auto; discriminate). rewrite drop_hits_filter in S2. exists h2, r, K. auto.
Qed.
(** ... and not in general: of two adjacent entries the second one stays *)
Theorem alist_deletex_refuted : exists h obj l xs h' r, closed h /\ in_heap h l /\ proper h l xs
  /\ alist_deletex val_eqb h obj l = Ok (h', r) /\ ~ proper h' r (filter (fun x => negb (key_is val_eqb h obj x)) xs).
Proof.
  set (h := [(Atom 1, Atom 10); (Atom 2, Atom 20); (Atom 2, Atom 30); (Ptr 0, Ptr 4); (Ptr 1, Ptr 5); (Ptr 2, Nil)]).
  exists h, (Atom 2), (Ptr 3), [Ptr 0; Ptr 1; Ptr 2]. eexists _, _.
  split; [unfold closed, h; repeat constructor; cbn; lia|]. split; [cbn; lia|]. split.
  { split; [apply not_pair_nil|]. exists [3; 4; 5]. do 3 (econstructor; [reflexivity|]). constructor. }
  split; [vm_compute; reflexivity|]. intros [_ (A & S)]. vm_compute in S.
  inversion S as [|? ? ? ? ? ? E1 S1]; subst. injection E1 as <-. inversion S1.
Qed.
Theorem filterx_correct : forall pred h l addrs xs, seg h l addrs xs Nil ->
  exists h' r kept, filterx pred h l = Ok (h', r) /\ seg h' r kept (filter pred xs) Nil /\ incl kept addrs /\ changed_only addrs h h' /\ length h' = length h.
Proof. exact filterx_ok. Qed.
(** split-at!, take!, take-right, drop-right! *)
Theorem split_atx_correct : forall h l addrs xs w, seg h l addrs xs w -> NoDup addrs ->
  exists h' r, split_atx h l (Z.of_nat (length xs)) = Ok (h', r, w) /\ seg h' r addrs xs Nil /\ changed_only addrs h h' /\ length h' = length h.
Proof. intros h l A xs w S N. rewrite <- (seg_len _ _ _ _ _ S). now apply split_atx_ok. Qed.
Theorem takex_correct : forall h l addrs xs w, seg h l addrs xs w -> NoDup addrs ->
  exists h' r, takex h l (Z.of_nat (length xs)) = Ok (h', r) /\ seg h' r addrs xs Nil /\ changed_only addrs h h' /\ length h' = length h.
Proof. intros h l A xs w S N. rewrite <- (seg_len _ _ _ _ _ S). eapply takex_ok; eauto. Qed.
Theorem take_drop_right_correct : forall h l addrs1 xs1 p addrs2 xs2 t, seg h l addrs1 xs1 p -> seg h p addrs2 xs2 t -> ~ is_pair t ->
  take_right h l (Z.of_nat (length xs2)) = Ok p
  /\ exists h' r, drop_rightx h l (Z.of_nat (length xs2)) = Ok (h', r) /\ seg h' r addrs1 xs1 Nil /\ changed_only addrs1 h h' /\ length h' = length h.
Proof.
  intros h l A xs p B ys t Sa Sb Ht. rewrite <- (seg_len _ _ _ _ _ Sb). apply pairp_false in Ht. split; [eapply take_right_ok; eauto|eapply drop_rightx_ok; eauto].
Qed.
Theorem list_set_correct : forall h l xs t i x v, list_of h l xs t -> nth_error xs i = Some x ->
  exists h' addrs1 a addrs2, list_set h l (Z.of_nat i) v = Ok h' /\ seg h l (addrs1 ++ a :: addrs2) xs t /\ length addrs1 = i
    /\ seg h' l (addrs1 ++ a :: addrs2) (firstn i xs ++ v :: skipn (S i) xs) t /\ changed_only [a] h h' /\ length h' = length h.
Proof.
  intros h l xs t i x v [Ht (A & S)] E. assert (L : i < length xs) by (apply nth_error_Some; congruence). pose proof (seg_len _ _ _ _ _ S) as La.
  destruct (seg_take _ _ _ _ _ i S) as (u & S1 & S2); [lia|].
  pose proof (seg_nodup _ _ _ _ _ S (proj2 (pairp_false _) Ht)) as N.
  assert (Es : skipn i xs = x :: skipn (Datatypes.S i) xs).
  { clear - E. revert i E. induction xs as [|y xs IH]; intros [|i] E; try discriminate; cbn in *; [congruence|]. destruct xs; [destruct i; discriminate|]. exact (IH i E). }
  rewrite Es in S2. destruct (skipn i A) as [|a B] eqn:EB; [inversion S2|]. inversion S2 as [|? ? d ? ? ? Ea Sd]; subst.
  assert (EA : A = firstn i A ++ a :: B) by (rewrite <- EB; symmetry; apply firstn_skipn).
  assert (Li : length (firstn i A) = i) by (rewrite firstn_length; lia).
  assert (Pl : pairp l = true) by (inversion S; subst; auto; cbn in L; lia).
  exists (store a (v, d) h), (firstn i A), a, B. rewrite <- EA. split.
  - rewrite <- Li at 1. eapply list_set_ok; eauto.
  - split; auto. split; auto. rewrite EA in N. pose proof (NoDup_remove_2 _ _ _ N) as Nn. rewrite in_app_iff in Nn. split.
    + rewrite EA at 1. eapply seg_app; [apply seg_store; [exact S1|tauto]|]. econstructor; [apply store_same; apply nth_error_Some; congruence|]. apply seg_store; auto.
    + split; [apply changed_store; left; auto|apply store_len].
Qed.
Example list_ops_nonvacuous :
  let h := [(Atom 1, Ptr 1); (Atom 2, Ptr 2); (Atom 1, Nil); (Atom 7, Nil)] in
  closed h /\ proper h (Ptr 0) [Atom 1; Atom 2; Atom 1] /\ firsts val_eqb [] [Atom 1; Atom 2; Atom 1] = [Atom 1; Atom 2]
  /\ (exists h' r, deletex val_eqb h (Atom 1) (Ptr 0) = Ok (h', r) /\ r = Ptr 1 /\ nth_error h' 1 = Some (Atom 2, Nil))
  /\ (exists h', append_x h [Ptr 0; Ptr 3; Atom 9] = Ok (h', Ptr 0) /\ nth_error h' 3 = Some (Atom 7, Atom 9)) /\ equivalence val_eqb.
Proof.
  cbv zeta. split; [unfold closed; repeat constructor; cbn; lia|]. split; [split; [apply not_pair_nil|]; exists [0; 1; 2]; do 3 (econstructor; [reflexivity|]); constructor|].
  split; [reflexivity|]. split; [vm_compute; eauto|]. split; [vm_compute; eauto|]. unfold equivalence. split; [|split].
  - intro x. now apply val_eqb_eq.
  - intros x y. destruct (val_eqb x y) eqn:E.
    + apply val_eqb_eq in E. subst. symmetry. now apply val_eqb_eq.
    + apply val_eqb_neq in E. symmetry. apply val_eqb_neq. congruence.
  - intros x y z H1 H2. apply val_eqb_eq in H1, H2. subst. now apply val_eqb_eq.
Qed.

Print Assumptions list_classification.
Print Assumptions list_shape_unique.
Print Assumptions length_compare_lists.
Print Assumptions length_compare_int_partial.
Print Assumptions length_compare_int_refuted.
Print Assumptions length_compare_bignum.
Print Assumptions num_pairs_counts.
Print Assumptions last_pair_correct.
Print Assumptions list_copy_correct.
Print Assumptions alist_copy_correct.
Print Assumptions make_list_correct.
Print Assumptions append2_correct.
Print Assumptions append_correct.
Print Assumptions reverse_correct.
Print Assumptions list_tail_ref_correct.
Print Assumptions list_range_copy_correct.
Print Assumptions member_correct.
Print Assumptions assoc_correct.
Print Assumptions delete_correct.
Print Assumptions alist_delete_correct.
Print Assumptions delete_duplicates_correct.
Print Assumptions reversex_correct.
Print Assumptions append2x_correct.
Print Assumptions appendx_correct.
Print Assumptions deletex_correct.
Print Assumptions delete_duplicatesx_correct.
Print Assumptions alist_deletex_partial.
Print Assumptions alist_deletex_refuted.
Print Assumptions filterx_correct.
Print Assumptions split_atx_correct.
Print Assumptions takex_correct.
Print Assumptions take_drop_right_correct.
Print Assumptions list_set_correct.
