(** The top-level sorting procedures on lists and vectors. *)
From Coq Require Import List Bool ZArith Permutation Lia.
From Verif Require Import Outcome ListModel ListSpec ListProofs ListProofs2 ListProofs3 ListProofs4 ListProofs5 ListProps SortModel SortSpec SortProofs SortProofs2 SortProofs3 SortProofs4 SortProofs5.
Import ListNotations.
Ltac Zify.zify_post_hook ::= idtac.

Lemma seg_chain : forall h v A xs w, seg h v A xs w -> chain h v (combine A xs) w /\ map fst (combine A xs) = A /\ map snd (combine A xs) = xs.
Proof.
  intros h v A xs w Sg. pose proof (seg_len _ _ _ _ _ Sg) as L. unfold chain.
  rewrite combine_fst, combine_snd by auto. auto.
Qed.
Lemma psort_sorted : forall lessv key n xs, length xs <= n -> 
  Permutation xs (psort (by_key lessv key) n xs) /\
  (strict_weak_order lessv -> stably_sorted_of (by_key lessv key) xs (psort (by_key lessv key) n xs)).
Proof.
  intros lessv key n xs Hn. split; [apply psort_perm|]. intros W.
  assert (W' : strict_weak_order (by_key lessv key)) by exact (swo_key lessv (app_key key) W).
  destruct (psort_stable (by_key lessv key) W' n xs Hn) as [S1 S2].
  split; [split|].
  - apply psort_perm.
  - apply srt_ordered; auto.
  - intro z. apply S2.
Qed.

Lemma stable_sortx_ok : forall lessv key h v A xs, closed h -> seg h v A xs Nil ->
  (forall x, In x xs -> in_heap h (app_key key x)) ->
  exists h' A' ys, stable_sortx (pless lessv) key h v = Ok (h', v) /\ length h <= length h' /\ changed_only A h h' /\
    seg h' v A' ys Nil /\ Permutation A A' /\ Permutation xs ys /\
    (strict_weak_order lessv -> stably_sorted_of (by_key lessv key) xs ys).
Proof.
  intros lessv key h v A xs Cl Sg Hk.
  destruct (seg_chain _ _ _ _ _ Sg) as (C & EA & EX). set (cs := combine A xs) in *. clearbody cs.
  destruct (istable_sortx_ok lessv key h v cs Cl C) as (h1 & p & cs1 & E1 & L1 & Ch1 & C1 & P1 & V1).
  { rewrite EX. auto. }
  rewrite EA in *. rewrite EX in *.
  assert (Hps : Permutation xs (map snd cs1) /\ (strict_weak_order lessv -> stably_sorted_of (by_key lessv key) xs (map snd cs1))).
  { rewrite V1. apply psort_sorted. rewrite <- EX, map_length. lia. }
  unfold stable_sortx. rewrite E1. cbn [bind].
  destruct cs as [|[q xq] cs].
  - cbn in EA. subst A. assert (cs1 = []) by (destruct cs1; auto; apply Permutation_nil in P1; discriminate). subst cs1.
    apply chain_nil_inv in C. apply chain_nil_inv in C1. subst v p. cbn [pairp andb].
    exists h1, [], []. cbn [map] in Hps. split; [reflexivity|]. split; [auto|]. split; [exact Ch1|]. split; [constructor|]. split; [auto|]. exact Hps.
  - destruct (chain_cons_inv _ _ _ _ _ _ C) as (-> & _). cbn [map fst] in EA. subst A.
    destruct cs1 as [|[s x0] tl].
    { apply Permutation_sym, Permutation_nil in P1. discriminate. }
    destruct (chain_cons_inv _ _ _ _ _ _ C1) as (-> & _). cbn [pairp andb].
    destruct (val_eqb (Ptr s) (Ptr q)) eqn:Esq; cbn [negb].
    + apply val_eqb_eq in Esq. injection Esq as ->. exists h1, (map fst ((q, x0) :: tl)), (map snd ((q, x0) :: tl)).
      split; [reflexivity|]. split; [auto|]. split; [exact Ch1|]. split; [exact C1|]. split; [exact P1|]. exact Hps.
    + apply val_eqb_neq in Esq.
      assert (Hin : In q (map fst ((s, x0) :: tl))) by (eapply Permutation_in; [exact P1|left; auto]).
      destruct Hin as [X|Hin]; [cbn in X; congruence|].
      apply in_map_iff in Hin. destruct Hin as ([q' xq'] & X & Hin). cbn in X. subst q'.
      apply in_split in Hin. destruct Hin as (rest & post & ->).
      assert (ND : NoDup (map fst ((s, x0) :: rest ++ (q, xq') :: post))) by (eapply seg_nodup; [exact C1|reflexivity]).
      destruct (fix_head_ok (S (length h1)) rest h1 s x0 [] s x0 q xq' post) as (h' & cs' & E2 & L2 & Ch2 & C2 & V2 & P2); auto.
      * exists []. reflexivity.
      * pose proof (seg_short _ _ _ _ _ C1 eq_refl) as Sh. rewrite map_length in Sh. cbn [length] in Sh. rewrite app_length in Sh. lia.
      * rewrite E2. exists h', (map fst cs'), (map snd cs'). split; [reflexivity|]. split; [lia|].
        cbn [app] in *. split. { intros a La Na. rewrite Ch2, Ch1; auto; try lia. intro X. apply Na. eapply Permutation_in; [symmetry; exact P1|exact X]. }
        split; [exact C2|]. split; [rewrite P1, P2; reflexivity|]. rewrite V2. exact Hps.
Qed.

(** list_copy in the form needed here *)
Lemma copy_list_seg : forall h v A xs, closed h -> seg h v A xs Nil ->
  exists h' r A', copy_list h v = Ok (h', r) /\ closed h' /\ preserved h h' /\ seg h' r A' xs Nil /\ Forall (fun a => length h <= a) A' /\ length h <= length h'.
Proof.
  intros h v A xs Cl Sg.
  assert (LO : list_of h v xs Nil) by (split; [intros (a & X); discriminate|eauto]).
  pose proof (list_of_in_heap _ _ _ _ LO) as I0.
  destruct (list_of_finite _ _ _ _ LO) as [F Ev]. pose proof (list_of_short _ _ _ _ LO) as Ln.
  destruct (copy_list_finite h Cl v _ I0 F Ln) as (h' & r & A' & E1 & C1 & P1 & S1 & F1 & _).
  rewrite <- (seg_elts _ _ _ _ _ Sg), Ev in S1. exists h', r, A'. repeat (split; [auto|]). apply preserved_len; auto.
Qed.

Lemma stable_sort_ok : forall lessv key h v A xs, closed h -> seg h v A xs Nil ->
  (forall x, In x xs -> in_heap h (app_key key x)) ->
  exists h' r A' ys, stable_sort (pless lessv) key h v = Ok (h', r) /\ preserved h h' /\
    seg h' r A' ys Nil /\ Forall (fun a => length h <= a) A' /\ Permutation xs ys /\
    (strict_weak_order lessv -> stably_sorted_of (by_key lessv key) xs ys).
Proof.
  intros lessv key h v A xs Cl Sg Hk. unfold stable_sort.
  destruct xs as [|x xs].
  - inversion Sg; subst. cbn [nullp]. exists h, Nil, [], []. split; [reflexivity|]. split; [apply preserved_refl|]. split; [constructor|]. split; [constructor|].
    split; [auto|]. intros W. apply (psort_sorted lessv key 0 []); auto.
  - inversion Sg; subst. cbn [nullp pairp].
    destruct (copy_list_seg _ _ _ _ Cl Sg) as (h1 & r & A1 & E1 & Cl1 & P1 & S1 & F1 & L1). rewrite E1. cbn [bind].
    destruct (seg_chain _ _ _ _ _ S1) as (C & EA & EX). set (cs := combine A1 (x :: xs)) in *.
    destruct (istable_sortx_ok lessv key h1 r cs Cl1 C) as (h2 & p & cs2 & E2 & L2 & Ch2 & C2 & P2 & V2).
    { rewrite EX. intros u Hu. eapply in_heap_mono; [|apply Hk; auto]. exact L1. }
    rewrite EA in *. rewrite EX in *. exists h2, p, (map fst cs2), (map snd cs2). split; [exact E2|].
    split. { intros b Lb. rewrite Ch2; [apply P1; auto|lia|]. intro X. rewrite Forall_forall in F1. specialize (F1 b X). lia. }
    split; [exact C2|]. split; [eapply Permutation_Forall; eauto|].
    rewrite V2. apply psort_sorted. rewrite <- EX, map_length. lia.
Qed.

(** ** vectors *)
Lemma array_to_list_ok : forall xs h0 h s l ys, build h0 h s l ys -> Forall (in_heap h) xs ->
  exists h' s' l', array_to_list h s l xs = Ok (h', s') /\ build h0 h' s' l' (ys ++ xs).
Proof.
  induction xs as [|x xs IH]; intros h0 h s l ys B F; cbn [array_to_list].
  - rewrite app_nil_r. eauto.
  - inversion F as [|? ? Fx Fr]; subst.
    destruct (append1_ok _ _ _ _ _ x B Fx) as (h1 & s1 & l1 & -> & B1 & L1 & _). cbn [bind].
    destruct (IH h0 h1 s1 l1 (ys ++ [x]) B1) as (h' & s' & l' & E & B').
    { eapply Forall_impl; [|exact Fr]. intros a. apply in_heap_mono. auto. }
    exists h', s', l'. rewrite <- app_assoc in B'. auto.
Qed.
Lemma read_back_ok : forall f h p A xs pre suf, seg h p A xs Nil -> length xs < f -> length suf = length xs ->
  read_back f h p (Z.of_nat (length pre)) (pre ++ suf) = Ok (pre ++ xs).
Proof.
  induction f; intros h p A xs pre suf Sg Hf Hl; [lia|]. cbn [read_back].
  inversion Sg; subst.
  - destruct suf; [|discriminate]. reflexivity.
  - cbn [nullp]. rewrite (scar_at _ _ _ _ H), (scdr_at _ _ _ _ H). cbn [bind]. destruct suf as [|z suf]; [discriminate|].
    rewrite aset_ok by (unfold alen; rewrite app_length; cbn; lia). cbn [bind]. rewrite Nat2Z.id, upd_app.
    replace (Z.of_nat (length pre) + 1)%Z with (Z.of_nat (length (pre ++ [x]))) by (rewrite app_length; cbn; lia).
    replace (pre ++ x :: suf) with ((pre ++ [x]) ++ suf) by (rewrite <- app_assoc; reflexivity).
    rewrite (IHf _ _ _ _ _ _ H0) by (cbn in *; lia). rewrite <- app_assoc. reflexivity.
Qed.
Lemma istable_sortx_vec_ok : forall lessv h vec, closed h -> Forall (in_heap h) vec ->
  exists h' vec', istable_sortx_vec (pless lessv) h vec = Ok (h', vec') /\ preserved h h' /\ Permutation vec vec' /\
    (strict_weak_order lessv -> stably_sorted_of lessv vec vec').
Proof.
  intros lessv h vec Cl F. unfold istable_sortx_vec.
  destruct (array_to_list_ok vec h h Nil Nil [] (build_init _ Cl) F) as (h1 & s & l & -> & B). cbn [bind app] in *.
  destruct (build_seg _ _ _ _ _ B) as (A & Sg & FA & NA).
  destruct (seg_chain _ _ _ _ _ Sg) as (C & EA & EX). set (cs := combine A vec) in *.
  assert (Lcs : length cs = length vec) by (rewrite <- (map_length snd), EX; auto).
  destruct (sort_step_ok (pless lessv) lessv (fun _ => True) (fun _ => True) (fun _ => True)) with (f := S (length vec)) (h := h1) (seq := s) (cs := cs) (w := Nil)
      as (h2 & p & cs2 & E2 & L2 & Ch2 & _ & C2 & P2 & V2); auto.
  { rewrite EA. auto. } { apply Forall_forall. auto. } { apply Forall_forall. auto. } { lia. }
  rewrite Lcs in E2. rewrite Nat2Z.id, E2. cbn [bind]. rewrite EX in V2. rewrite EA in *.
  pose proof (seg_short _ _ _ _ _ C2 eq_refl) as Sh. rewrite map_length in Sh.
  pose proof (Permutation_length P2) as PL. rewrite map_length in PL.
  assert (LA : length A = length vec) by (rewrite <- EA, map_length; auto).
  rewrite (read_back_ok _ _ _ _ _ [] vec C2) by (rewrite ?map_length; lia). cbn [bind app].
  exists h2, (map snd cs2). split; [reflexivity|].
  split. { intros a La. rewrite Ch2; [apply B; auto|pose proof (bu_len _ _ _ _ _ B); lia|]. intro X. rewrite Forall_forall in FA. specialize (FA a X). lia. }
  rewrite V2. apply (psort_sorted lessv None). lia.
Qed.

(** ** the C sorter on lists *)
Lemma list_to_array_ok : forall f h v A xs, seg h v A xs Nil -> length xs < f -> list_to_array f h v = Ok xs.
Proof.
  induction f; intros h v A xs Sg Hf; [lia|]. cbn [list_to_array]. inversion Sg; subst; cbn [pairp].
  - reflexivity.
  - rewrite (car_at _ _ _ _ H), (cdr_at _ _ _ _ H). cbn [bind]. cbn in Hf. rewrite (IHf _ _ _ _ H0) by lia. reflexivity.
Qed.
Lemma set_cars_ok : forall ys h v A xs, seg h v A xs Nil -> NoDup A -> length ys = length xs ->
  exists h', set_cars h v ys = Ok h' /\ length h' = length h /\ changed_only A h h' /\ seg h' v A ys Nil.
Proof.
  induction ys as [|y ys IH]; intros h v A xs Sg N L; cbn [set_cars].
  - destruct xs; [|discriminate]. inversion Sg; subst. exists h. split; [auto|]. split; [auto|]. split; [apply changed_refl|constructor].
  - destruct xs as [|x xs]; [discriminate|]. inversion Sg as [|a ? d A' ? ? En Sg']; subst.
    inversion N as [|? ? Na N']; subst.
    rewrite (set_car_at _ _ _ _ y En). cbn [bind].
    assert (Es : nth_error (store a (y, d) h) a = Some (y, d)) by (apply store_same; eapply some_lt; eauto).
    rewrite (cdr_at _ _ _ _ Es). cbn [bind].
    destruct (IH (store a (y, d) h) d A' xs) as (h' & E & L' & Ch & S'); auto.
    { apply seg_store; auto. }
    rewrite store_len in L'. exists h'. split; [exact E|]. split; [auto|].
    assert (Ch' : forall b, b < length h -> ~ In b A' -> nth_error h' b = nth_error (store a (y, d) h) b).
    { intros b Lb Nb. apply Ch; auto. rewrite store_len; auto. }
    split. { intros b Lb Nb. cbn in Nb. rewrite Ch' by auto. apply store_other. auto. }
    econstructor; [|exact S']. rewrite Ch'; auto. eapply some_lt; eauto.
Qed.

Lemma seg_elems_in_heap : forall h v A xs w, closed h -> seg h v A xs w -> Forall (in_heap h) xs.
Proof.
  intros h v A xs w Cl. induction 1; constructor; auto.
  destruct (closed_cell h a Cl) as (x1 & d1 & E & I1 & _); [eapply some_lt; eauto|]. rewrite H in E. injection E as -> _. exact I1.
Qed.

Lemma sort_list_int_ok : forall cmp h v A xs, closed h -> seg h v A xs Nil -> (Z.of_nat (length xs) < 2 ^ 30)%Z ->
  exists ys, Permutation xs ys /\ (strict_weak_order (lt_ cmp) -> ordered (lt_ cmp) ys) /\
    (exists h', sort_list_int cmp h v true = Ok (h', v) /\ length h' = length h /\ changed_only A h h' /\ seg h' v A ys Nil) /\
    (exists h' r A', sort_list_int cmp h v false = Ok (h', r) /\ preserved h h' /\ seg h' r A' ys Nil /\ Forall (fun a => length h <= a) A').
Proof.
  intros cmp h v A xs Cl Sg Hn.
  destruct (sort_array_ok cmp xs Hn) as (ys & E & P & O).
  exists ys. split; [exact P|]. split; [exact O|]. unfold sort_list_int.
  pose proof (proper_length _ _ _ _ Cl Sg) as Ln. unfold scm_length in Ln.
  destruct (scm_length2 h false v) as [n| | |]; try discriminate. cbn [bind] in *. destruct (n <? 0)%Z; [discriminate|].
  pose proof (seg_short _ _ _ _ _ Sg eq_refl) as Sh. rewrite (seg_len _ _ _ _ _ Sg) in Sh.
  rewrite (list_to_array_ok _ _ _ _ _ Sg) by lia. cbn [bind]. rewrite E. cbn [bind].
  assert (NA : NoDup A) by (eapply seg_nodup; [exact Sg|reflexivity]).
  split.
  - destruct (set_cars_ok ys h v A xs Sg NA) as (h' & -> & L' & Ch & S'); [symmetry; apply Permutation_length; auto|].
    cbn [bind]. exists h'. auto.
  - destruct (array_to_list_ok ys h h Nil Nil [] (build_init _ Cl)) as (h1 & s & l & -> & B).
    { eapply Permutation_Forall; [exact P|]. eapply seg_elems_in_heap; eauto. }
    cbn [app] in B. destruct (build_seg _ _ _ _ _ B) as (A' & S' & FA & _).
    exists h1, s, A'. split; [reflexivity|]. split; [apply B|]. auto.
Qed.
