(** building new lists; the old heap is preserved *)
From Coq Require Import List Bool ZArith Lia.
From Verif Require Import Outcome ListModel ListSpec ListProofs ListProofs2.
Import ListNotations.
Ltac Zify.zify_post_hook ::= idtac.

(** ** stores and allocation *)
Lemma store_len : forall h a c, length (store a c h) = length h.
Proof. induction h; intros [|b] c; cbn; auto. Qed.
Lemma store_same : forall h a c, a < length h -> nth_error (store a c h) a = Some c.
Proof. induction h; intros [|b] c L; cbn in *; try lia; auto. apply IHh. lia. Qed.
Lemma store_other : forall h a b c, a <> b -> nth_error (store a c h) b = nth_error h b.
Proof. induction h; intros [|a'] [|b] c L; cbn; auto; try congruence. Qed.
Lemma store_in : forall h a c x, In x (store a c h) -> x = c \/ In x h.
Proof. induction h; intros [|b] c x H; cbn in *; auto; destruct H; auto. apply IHh in H. tauto. Qed.

Lemma in_heap_mono : forall h h' v, length h <= length h' -> in_heap h v -> in_heap h' v.
Proof. intros h h' [| |a] L H; cbn in *; auto. lia. Qed.
Lemma closed_store : forall h a x d, closed h -> in_heap h x -> in_heap h d -> closed (store a (x, d) h).
Proof.
  intros h a x d C Ix Id. unfold closed in *. rewrite Forall_forall in *. intros c Hc. apply store_in in Hc.
  assert (L : length h <= length (store a (x, d) h)) by (rewrite store_len; lia).
  destruct Hc as [->|Hc]; cbn; split; try (eapply in_heap_mono; eauto; fail); eapply in_heap_mono; eauto; apply (C _ Hc).
Qed.
Lemma closed_cons : forall h x d, closed h -> in_heap h x -> in_heap (h ++ [(x, d)]) d -> closed (h ++ [(x, d)]).
Proof.
  intros h x d C Ix Id. unfold closed in *. rewrite Forall_forall in *. intros c Hc. apply in_app_iff in Hc.
  assert (L : length h <= length (h ++ [(x, d)])) by (rewrite app_length; lia).
  destruct Hc as [Hc|[<-|[]]]; cbn; split; auto; eapply in_heap_mono; eauto; apply (C _ Hc).
Qed.
Lemma preserved_cons : forall h c, preserved h (h ++ [c]).
Proof. intros h c a L. now rewrite nth_error_app1. Qed.
Lemma nth_new : forall (h : heap) c, nth_error (h ++ [c]) (length h) = Some c.
Proof. intros. rewrite nth_error_app2, Nat.sub_diag by lia. reflexivity. Qed.
Lemma preserved_store : forall h h' a c, preserved h h' -> length h <= a -> preserved h (store a c h').
Proof. intros h h' a c P L b Hb. rewrite store_other by lia. now apply P. Qed.

(** ** segments and heap change *)
Lemma seg_frame : forall h h' v addrs xs w, seg h v addrs xs w -> (forall a, In a addrs -> nth_error h' a = nth_error h a) -> seg h' v addrs xs w.
Proof.
  induction 1; intros P; econstructor; eauto.
  - rewrite P; [eauto|left; auto].
  - apply IHseg. intros b Hb. apply P. right; auto.
Qed.
Lemma seg_bounds : forall h v addrs xs w, seg h v addrs xs w -> Forall (fun a => a < length h) addrs.
Proof. induction 1; constructor; auto. apply nth_error_Some. congruence. Qed.
Lemma seg_preserved : forall h h' v addrs xs w, seg h v addrs xs w -> preserved h h' -> seg h' v addrs xs w.
Proof.
  intros h h' v addrs xs w S P. eapply seg_frame; eauto. intros a Ha. apply P.
  pose proof (seg_bounds _ _ _ _ _ S) as B. rewrite Forall_forall in B. auto.
Qed.
Lemma list_of_preserved : forall h h' v xs t, list_of h v xs t -> preserved h h' -> list_of h' v xs t.
Proof. intros h h' v xs t [Ht (addrs & S)] P. split; auto. exists addrs. eapply seg_preserved; eauto. Qed.
Lemma seg_nodup : forall h v addrs xs w, seg h v addrs xs w -> pairp w = false -> NoDup addrs.
Proof.
  intros h v addrs xs w S Hw. apply NoDup_nth_error. intros i j Hi E.
  destruct (nth_error addrs i) as [a|] eqn:Ei; [|apply nth_error_None in Ei; lia]. symmetry in E.
  pose proof (seg_nth _ _ _ _ _ S _ _ Ei) as X1. pose proof (seg_nth _ _ _ _ _ S _ _ E) as X2.
  assert (Lj : j < length addrs) by (apply nth_error_Some; congruence).
  assert (F : forall k, k < length addrs -> pairp (ncdr h k v) = true) by (intros; eapply seg_pair; eauto).
  assert (T : pairp (ncdr h (length addrs) v) = false) by (rewrite (seg_ncdr _ _ _ _ _ S); auto).
  destruct (lt_eq_lt_dec i j) as [[L|]|L]; auto; exfalso.
  - apply (finite_distinct h v _ i j F T); auto; try lia. congruence.
  - apply (finite_distinct h v _ j i F T); auto; try lia. congruence.
Qed.
Lemma seg_snoc_inv : forall h v addrs a xs x w, seg h v (addrs ++ [a]) (xs ++ [x]) w ->
  exists d, seg h v addrs xs (Ptr a) /\ nth_error h a = Some (x, w) /\ d = w.
Proof.
  intros h v addrs a xs x w S. apply seg_app_inv in S.
  - destruct S as (u & S1 & S2). inversion S2; subst. inversion H6; subst. exists w. auto.
  - apply seg_len in S. rewrite !app_length in S. cbn in S. lia.
Qed.
Lemma seg_set_last : forall h v addrs a xs x w w', seg h v (addrs ++ [a]) (xs ++ [x]) w -> ~ In a addrs ->
  seg (store a (x, w') h) v (addrs ++ [a]) (xs ++ [x]) w'.
Proof.
  intros h v addrs a xs x w w' S N. apply seg_snoc_inv in S. destruct S as (_ & S & E & _).
  eapply seg_app.
  - eapply seg_frame; [exact S|]. intros b Hb. apply store_other. congruence.
  - econstructor; [|constructor]. apply store_same. apply nth_error_Some. congruence.
Qed.
Lemma set_cdr_at : forall h a x d w, nth_error h a = Some (x, d) -> set_cdr h (Ptr a) w = Ok (store a (x, w) h).
Proof. intros h a x d w E. unfold set_cdr. rewrite E. reflexivity. Qed.
Lemma car_at : forall h a x d, nth_error h a = Some (x, d) -> car h (Ptr a) = Ok x.
Proof. intros h a x d E. unfold car, cell. now rewrite E. Qed.
Lemma cdr_at : forall h a x d, nth_error h a = Some (x, d) -> cdr h (Ptr a) = Ok d.
Proof. intros h a x d E. unfold cdr, cell. now rewrite E. Qed.

(** ** the builder SCM_APPEND1 *)
Record build (h0 h : heap) (start last : val) (xs : list val) : Prop := {
  bu_closed : closed h;
  bu_pres : preserved h0 h;
  bu_len : length h0 <= length h;
  bu_shape : (xs = [] /\ start = Nil /\ last = Nil) \/
    exists addrs ys y a, xs = ys ++ [y] /\ last = Ptr a /\ seg h start (addrs ++ [a]) (ys ++ [y]) Nil
      /\ Forall (fun b => length h0 <= b) (addrs ++ [a]);
}.
Lemma build_init : forall h, closed h -> build h h Nil Nil [].
Proof. intros h C. constructor; auto. apply preserved_refl. Qed.
Lemma nodup_snoc : forall {A} (l : list A) a, NoDup (l ++ [a]) -> ~ In a l.
Proof. intros A l a N. apply NoDup_remove_2 in N. now rewrite app_nil_r in N. Qed.

Lemma append1_ok : forall h0 h s l xs x, build h0 h s l xs -> in_heap h x ->
  exists h' s' l', append1 h s l x = Ok (h', s', l') /\ build h0 h' s' l' (xs ++ [x]) /\ length h <= length h' /\
    (forall b, b < length h -> Ptr b <> l -> nth_error h' b = nth_error h b).
Proof.
  intros h0 h s l xs x B Ix. unfold append1. cbn [cons_].
  assert (C1 : closed (h ++ [(x, Nil)])) by (apply closed_cons; auto; [apply B|exact Logic.I]).
  assert (P1 : preserved h0 (h ++ [(x, Nil)])) by (eapply preserved_trans; [apply B|apply B|apply preserved_cons]).
  assert (L1 : length h0 <= length (h ++ [(x, Nil)])) by (pose proof (bu_len _ _ _ _ _ B); rewrite app_length; lia).
  destruct (bu_shape _ _ _ _ _ B) as [(-> & -> & ->)|(addrs & ys & y & a & -> & -> & S & F)].
  - cbn [nullp]. eexists _, _, _; split; [reflexivity|]. split; [|split; [rewrite app_length; lia|intros b Hb _; now apply preserved_cons]].
    constructor; auto. right.
    exists [], [], x, (length h). cbn [app]. split; auto. split; auto. split.
    + econstructor; [apply nth_new|constructor].
    + constructor; auto. apply B.
  - assert (Ns : nullp s = false) by (destruct addrs; inversion S; reflexivity). rewrite Ns.
    pose proof (seg_nodup _ _ _ _ _ S eq_refl) as Nd.
    pose proof (seg_preserved _ _ _ _ _ _ S (preserved_cons h (x, Nil))) as S1.
    pose proof (seg_snoc_inv _ _ _ _ _ _ _ S1) as (_ & _ & Ea & _).
    pose proof (seg_bounds _ _ _ _ _ S) as Bd.
    assert (La : a < length h) by (rewrite Forall_app in Bd; destruct Bd as [_ Bd]; inversion Bd; auto).
    assert (La0 : length h0 <= a) by (rewrite Forall_app in F; destruct F as [_ F']; inversion F'; auto).
    rewrite (set_cdr_at _ _ _ _ (Ptr (length h)) Ea). cbn [bind].
    erewrite cdr_at by (apply store_same; rewrite app_length; cbn; lia). cbn [bind].
    eexists _, _, _; split; [reflexivity|]. split; [|split; [rewrite store_len, app_length; lia|]].
    2:{ intros b Hb Hne. rewrite store_other by congruence. now apply preserved_cons. }
    constructor.
    + destruct (closed_cell _ a C1) as (x1 & d1 & E1 & Ix1 & _); [rewrite app_length; lia|]. rewrite Ea in E1. injection E1 as <- <-.
      apply closed_store; auto. cbn. rewrite app_length. cbn. lia.
    + apply preserved_store; auto.
    + rewrite store_len. exact L1.
    + right. exists (addrs ++ [a]), (ys ++ [y]), x, (length h). split; auto. split; auto. split.
      * eapply seg_app.
        -- eapply seg_set_last; eauto. now apply nodup_snoc.
        -- econstructor; [|constructor]. rewrite store_other by lia. apply nth_new.
      * rewrite Forall_app. split; auto. constructor; auto. apply B.
Qed.
Lemma append1_last : forall h s l x h' s' l', append1 h s l x = Ok (h', s', l') -> l' = Ptr (length h).
Proof.
  intros h s l x h' s' l' H. unfold append1 in H. cbn [cons_] in H. destruct (nullp s); [congruence|].
  unfold set_cdr in H. destruct l as [|z|a]; try discriminate.
  destruct (nth_error (h ++ [(x, Nil)]) a) as [c|] eqn:E; cbn [of_opt bind] in H; try discriminate.
  unfold cdr, cell in H. rewrite store_same in H by (apply nth_error_Some; congruence). cbn in H. congruence.
Qed.
(** finishing with a tail *)
Lemma build_finish : forall h0 h s l xs w, build h0 h s l xs -> xs <> [] -> in_heap h w ->
  exists h' addrs, set_cdr h l w = Ok h' /\ closed h' /\ preserved h0 h' /\ length h <= length h' /\ seg h' s addrs xs w /\ Forall (fun b => length h0 <= b) addrs
   /\ NoDup addrs.
Proof.
  intros h0 h s l xs w B Ne Iw. destruct (bu_shape _ _ _ _ _ B) as [(-> & _)|(addrs & ys & y & a & -> & -> & S & F)]; [congruence|].
  pose proof (seg_nodup _ _ _ _ _ S eq_refl) as Nd. pose proof (seg_snoc_inv _ _ _ _ _ _ _ S) as (_ & _ & Ea & _).
  assert (La0 : length h0 <= a) by (rewrite Forall_app in F; destruct F as [_ F']; inversion F'; auto).
  rewrite (set_cdr_at _ _ _ _ w Ea). exists (store a (y, w) h), (addrs ++ [a]). split; auto. split.
  - assert (La : a < length h) by (apply nth_error_Some; congruence).
    destruct (closed_cell _ a (bu_closed _ _ _ _ _ B) La) as (x1 & d1 & E1 & Ix1 & _). rewrite Ea in E1. injection E1 as <- <-.
    apply closed_store; auto. apply B.
  - split; [apply preserved_store; auto; apply B|]. split; [rewrite store_len; lia|]. split; [|split; auto].
    eapply seg_set_last; eauto. now apply nodup_snoc.
Qed.
Lemma build_seg : forall h0 h s l xs, build h0 h s l xs -> exists addrs, seg h s addrs xs Nil /\ Forall (fun b => length h0 <= b) addrs /\ NoDup addrs.
Proof.
  intros h0 h s l xs B. destruct (bu_shape _ _ _ _ _ B) as [(-> & -> & _)|(addrs & ys & y & a & -> & -> & S & F)].
  - exists []. split; [constructor|]. split; [constructor|constructor].
  - exists (addrs ++ [a]). split; auto. split; auto. eapply seg_nodup; eauto.
Qed.
Lemma build_start_null : forall h0 h s l xs, build h0 h s l xs -> (nullp s = true <-> xs = []).
Proof.
  intros h0 h s l xs B. destruct (bu_shape _ _ _ _ _ B) as [(-> & -> & _)|(addrs & ys & y & a & -> & -> & S & F)].
  - cbn. tauto.
  - assert (Ns : nullp s = false) by (destruct addrs; inversion S; reflexivity). rewrite Ns. split; intro H; [discriminate|].
    destruct ys; discriminate.
Qed.

(** ** elements *)
Definition ncar (h : heap) (v : val) (k : nat) : val :=
  match ncdr h k v with Ptr a => match nth_error h a with Some (x, _) => x | None => Nil end | _ => Nil end.
Definition elts (h : heap) (v : val) (i n : nat) : list val := map (ncar h v) (seq i n).
Lemma elts_S : forall h v i n, elts h v i (S n) = elts h v i n ++ [ncar h v (i + n)].
Proof. intros. unfold elts. rewrite seq_S, map_app. reflexivity. Qed.
Lemma elts_app : forall h v i n m, elts h v i (n + m) = elts h v i n ++ elts h v (i + n) m.
Proof. intros. unfold elts. rewrite seq_app, map_app. reflexivity. Qed.
Lemma elts_len : forall h v i n, length (elts h v i n) = n.
Proof. intros. unfold elts. now rewrite map_length, seq_length. Qed.
Lemma seg_elts : forall h v addrs xs w, seg h v addrs xs w -> xs = elts h v 0 (length xs).
Proof.
  induction 1; [reflexivity|]. unfold elts in *. cbn [length seq map]. f_equal.
  - unfold ncar. cbn. now rewrite H.
  - rewrite <- seq_shift, map_map. rewrite IHseg at 1. apply map_ext. intro k. unfold ncar. cbn [ncdr]. now rewrite H.
Qed.
Lemma ncar_shift : forall h v i k, ncar h (ncdr h i v) k = ncar h v (i + k).
Proof. intros. unfold ncar. rewrite <- ncdr_add. now rewrite Nat.add_comm. Qed.
Lemma elts_shift : forall h v i n, elts h (ncdr h i v) 0 n = elts h v i n.
Proof.
  intros. unfold elts. apply nth_ext with (d := Nil) (d' := Nil); rewrite !map_length, !seq_length; auto.
  intros k Hk. rewrite !(nth_indep _ Nil (ncar h v i)) by (rewrite map_length, seq_length; auto).
  rewrite (nth_indep _ _ (ncar h (ncdr h i v) 0)) by (rewrite map_length, seq_length; auto).
  rewrite (map_nth (ncar h (ncdr h i v))), (map_nth (ncar h v)), !seq_nth by auto. apply ncar_shift.
Qed.
Lemma car_ncar : forall h h' v n, closed h -> in_heap h v -> preserved h h' -> pairp (ncdr h n v) = true -> car h' (ncdr h n v) = Ok (ncar h v n).
Proof.
  intros h h' v n C I P Hp. pose proof (ncdr_in h n v C I) as In. unfold ncar.
  destruct (ncdr h n v) as [|z|a]; try discriminate. cbn in In.
  unfold car, cell. rewrite (P a In). destruct (closed_cell h a C In) as (x & d & E & _). rewrite E. reflexivity.
Qed.
Lemma ncar_in : forall h v n, closed h -> in_heap h v -> in_heap h (ncar h v n).
Proof.
  intros h v n C I. pose proof (ncdr_in h n v C I) as In. unfold ncar. destruct (ncdr h n v) as [|z|a]; cbn; auto.
  destruct (closed_cell h a C In) as (x & d & E & Ix & _). now rewrite E.
Qed.
(** a finite list from position i on *)
Lemma tail_list : forall h v n i, closed h -> in_heap h v -> finite h v n -> i <= n ->
  exists addrs, seg h (ncdr h i v) addrs (elts h v i (n - i)) (ncdr h n v).
Proof.
  intros h v n i C I [F1 F2] L. destruct (seg_build h (n - i) (ncdr h i v)) as (addrs & xs & La & S).
  - auto.
  - now apply ncdr_in.
  - intros k Hk. rewrite <- ncdr_add. apply F1. lia.
  - rewrite <- ncdr_add in S. replace (n - i + i) with n in S by lia. exists addrs.
    pose proof (seg_elts _ _ _ _ _ S) as E. rewrite <- (seg_len _ _ _ _ _ S), La, elts_shift in E. now rewrite <- E.
Qed.
Lemma prefix_seg : forall h v n i, closed h -> in_heap h v -> (forall k, k < n -> pairp (ncdr h k v) = true) -> i <= n ->
  exists addrs, seg h v addrs (elts h v 0 i) (ncdr h i v).
Proof.
  intros h v n i C I F L. destruct (seg_build h i v C I) as (addrs & xs & La & S); [intros; apply F; lia|].
  exists addrs. pose proof (seg_elts _ _ _ _ _ S) as E. rewrite <- (seg_len _ _ _ _ _ S), La in E. now rewrite <- E.
Qed.

Local Opaque ncdr.

Section Old.
Variable h : heap.
Hypothesis C : closed h.

(** ** copying *)
Lemma copy_loop_finite : forall v n, in_heap h v -> finite h v n -> forall fuel i hh s l, 2 * i <= n -> n - 2 * i < 2 * fuel ->
  build h hh s l (elts h v 0 (2 * i)) ->
  exists h' s' l', copy_list_loop fuel hh s l (ncdr h (2 * i) v) (ncdr h i v) = Ok (h', s', l', ncdr h n v) /\ build h h' s' l' (elts h v 0 n).
Proof.
  intros v n I F. induction fuel as [|fuel IH]; intros i hh s l L1 L2 B; [lia|]. cbn [copy_list_loop]. destruct F as [F1 F2].
  destruct (Nat.eq_dec (2 * i) n) as [E|NE].
  - rewrite E in *. rewrite F2. cbn [negb]. eauto 6.
  - assert (P0 : pairp (ncdr h (2 * i) v) = true) by (apply F1; lia). rewrite P0. cbn [negb].
    rewrite (car_ncar h hh) by (auto; apply B). cbn [bind].
    destruct (append1_ok h hh s l _ (ncar h v (2 * i)) B) as (h1 & s1 & l1 & E1 & B1 & G1 & _).
    { eapply in_heap_mono; [apply B|]. now apply ncar_in. }
    rewrite E1. cbn [bind]. rewrite (cdr_ncdr h h1) by (auto; apply B1). cbn [bind]. rewrite <- (elts_S h v 0) in B1.
    destruct (Nat.eq_dec (S (2 * i)) n) as [E|NE2].
    + rewrite E in *. rewrite F2. cbn [negb]. eauto 6.
    + assert (P1 : pairp (ncdr h (S (2 * i)) v) = true) by (apply F1; lia). rewrite P1. cbn [negb].
      rewrite (car_ncar h h1) by (auto; apply B1). cbn [bind].
      destruct (append1_ok h h1 s1 l1 _ (ncar h v (S (2 * i))) B1) as (h2 & s2 & l2 & E2 & B2 & G2 & _).
      { eapply in_heap_mono; [apply B1|]. now apply ncar_in. }
      rewrite E2. cbn [bind]. rewrite !(cdr_ncdr h h2) by (auto; try apply B2; apply F1; lia). cbn [bind]. rewrite twice.
      rewrite <- (elts_S h v 0) in B2. replace (S (S (2 * i))) with (2 * S i) in B2 by lia.
      destruct (val_eqb _ _) eqn:Ev.
      * apply val_eqb_eq in Ev. exfalso. apply (meet_only_endless h v n (S i)); auto; try lia. split; auto.
      * apply IH; auto; lia.
Qed.
Lemma copy_loop_endless : forall v m, in_heap h v -> endless h v -> ncdr h (2 * m) v = ncdr h m v ->
  forall fuel i hh s l, i < m -> m - i <= fuel -> build h hh s l (elts h v 0 (2 * i)) ->
  copy_list_loop fuel hh s l (ncdr h (2 * i) v) (ncdr h i v) = Err.
Proof.
  intros v m I F M. induction fuel as [|fuel IH]; intros i hh s l L1 L2 B; [lia|]. cbn [copy_list_loop].
  rewrite (F (2 * i)). cbn [negb]. rewrite (car_ncar h hh) by (auto; apply B). cbn [bind].
  destruct (append1_ok h hh s l _ (ncar h v (2 * i)) B) as (h1 & s1 & l1 & E1 & B1 & G1 & _).
  { eapply in_heap_mono; [apply B|]. now apply ncar_in. }
  rewrite E1. cbn [bind]. rewrite (cdr_ncdr h h1) by (auto; apply B1). cbn [bind]. rewrite <- (elts_S h v 0) in B1.
  rewrite (F (S (2 * i))). cbn [negb]. rewrite (car_ncar h h1) by (auto; apply B1). cbn [bind].
  destruct (append1_ok h h1 s1 l1 _ (ncar h v (S (2 * i))) B1) as (h2 & s2 & l2 & E2 & B2 & G2 & _).
  { eapply in_heap_mono; [apply B1|]. now apply ncar_in. }
  rewrite E2. cbn [bind]. rewrite !(cdr_ncdr h h2) by (auto; apply B2). cbn [bind]. rewrite twice.
  rewrite <- (elts_S h v 0) in B2. replace (S (S (2 * i))) with (2 * S i) in B2 by lia.
  destruct (val_eqb _ _) eqn:Ev; auto. apply val_eqb_neq in Ev. assert (S i <> m) by congruence. apply IH; auto; lia.
Qed.
Lemma copy_list_finite : forall v n, in_heap h v -> finite h v n -> n <= length h ->
  exists h' r addrs, copy_list h v = Ok (h', r) /\ closed h' /\ preserved h h' /\
    seg h' r addrs (elts h v 0 n) (ncdr h n v) /\ Forall (fun b => length h <= b) addrs /\ NoDup addrs.
Proof.
  intros v n I F Ln. unfold copy_list. destruct (pairp v) eqn:Pv; cbn [negb].
  - destruct (copy_loop_finite v n I F (S (length h)) 0 h Nil Nil) as (h1 & s1 & l1 & E1 & B1); try lia.
    { apply build_init; auto. }
    change (ncdr h (2 * 0) v) with v in E1. change (ncdr h 0 v) with v in E1.
    rewrite E1. cbn [bind].
    assert (Hn : elts h v 0 n <> []).
    { intro X. apply (f_equal (@length _)) in X. rewrite elts_len in X. cbn in X. subst n. destruct F as [_ F2]. change (pairp v = false) in F2. congruence. }
    destruct (nullp (ncdr h n v)) eqn:Nn.
    + assert (En : ncdr h n v = Nil) by (destruct (ncdr h n v); auto; discriminate). rewrite En.
      destruct (build_seg _ _ _ _ _ B1) as (addrs & S & Fa & Nd). exists h1, s1, addrs. split; auto. split; [apply B1|]. split; [apply B1|]. auto.
    + destruct (build_finish _ _ _ _ _ (ncdr h n v) B1 Hn) as (h2 & addrs & E2 & C2 & P2 & G2 & S2 & F2 & N2).
      { eapply in_heap_mono; [apply B1|]. now apply ncdr_in. }
      rewrite E2. cbn [bind]. exists h2, s1, addrs. auto 8.
  - assert (n = 0). { destruct n; auto. destruct F as [F1 _]. specialize (F1 0 ltac:(lia)). change (pairp v = true) in F1. congruence. }
    subst n. exists h, v, []. split; auto. split; auto. split; [apply preserved_refl|]. split; [constructor|]. split; constructor.
Qed.
Lemma copy_list_endless : forall v, in_heap h v -> endless h v -> copy_list h v = Err.
Proof.
  intros v I F. unfold copy_list. pose proof (F 0) as F0. change (pairp v = true) in F0. rewrite F0. cbn [negb].
  destruct (meet h v C I F) as (m & M1 & M2 & M3).
  pose proof (copy_loop_endless v m I F M3 (S (length h)) 0 h Nil Nil ltac:(lia) ltac:(lia) (build_init h C)) as X.
  change (ncdr h (2 * 0) v) with v in X. change (ncdr h 0 v) with v in X. rewrite X. reflexivity.
Qed.

(** ** append_each *)
Lemma append_each_ok : forall v n, in_heap h v -> finite h v n -> forall fuel i hh s l pre, i <= n -> n - i < fuel -> build h hh s l (pre ++ elts h v 0 i) ->
  exists h' s' l', append_each fuel hh s l (ncdr h i v) = Ok (h', s', l', ncdr h n v) /\ build h h' s' l' (pre ++ elts h v 0 n).
Proof.
  intros v n I F. induction fuel as [|fuel IH]; intros i hh s l pre L1 L2 B; [lia|]. cbn [append_each]. destruct F as [F1 F2].
  destruct (Nat.eq_dec i n) as [->|NE].
  - rewrite F2. cbn [negb]. eauto 6.
  - rewrite (F1 i) by lia. cbn [negb]. rewrite (car_ncar h hh) by (auto; try apply B; apply F1; lia). cbn [bind].
    destruct (append1_ok h hh s l _ (ncar h v i) B) as (h1 & s1 & l1 & E1 & B1 & G1 & _).
    { eapply in_heap_mono; [apply B|]. now apply ncar_in. }
    rewrite E1. cbn [bind]. rewrite (cdr_ncdr h h1) by (auto; try apply B1; apply F1; lia). cbn [bind].
    rewrite <- app_assoc, <- (elts_S h v 0) in B1. apply IH; auto; lia.
Qed.
Lemma append2_ok : forall v n obj, in_heap h v -> in_heap h obj -> finite h v n -> n <= length h -> ncdr h n v = Nil ->
  exists h' r addrs, append2 h v obj = Ok (h', r) /\ closed h' /\ preserved h h' /\ seg h' r addrs (elts h v 0 n) obj /\ Forall (fun b => length h <= b) addrs.
Proof.
  intros v n obj I Io F Ln En. unfold append2. destruct (nullp v) eqn:Nv.
  - assert (v = Nil) by (destruct v; auto; discriminate). subst v.
    assert (n = 0). { destruct n; auto. destruct F as [F1 _]. specialize (F1 0 ltac:(lia)). discriminate. } subst n.
    exists h, obj, []. split; auto. split; auto. split; [apply preserved_refl|]. split; constructor.
  - destruct (append_each_ok v n I F (S (length h)) 0 h Nil Nil []) as (h1 & s1 & l1 & E1 & B1); try lia.
    { apply build_init; auto. }
    change (ncdr h 0 v) with v in E1. rewrite E1. cbn [bind]. rewrite En. cbn [nullp negb].
    assert (Hn : elts h v 0 n <> []).
    { intro X. apply (f_equal (@length _)) in X. rewrite elts_len in X. cbn in X. subst n. change (v = Nil) in En. subst v. discriminate. }
    destruct (build_finish _ _ _ _ _ obj B1 Hn) as (h2 & addrs & E2 & C2 & P2 & G2 & S2 & F2 & N2).
    { eapply in_heap_mono; [apply B1|]. auto. }
    rewrite E2. cbn [bind app] in *. exists h2, s1, addrs. auto 8.
Qed.
Lemma append2_dotted : forall v n obj, in_heap h v -> finite h v n -> n <= length h -> ncdr h n v <> Nil -> append2 h v obj = Err.
Proof.
  intros v n obj I F Ln En. unfold append2. destruct (nullp v) eqn:Nv.
  - assert (v = Nil) by (destruct v; auto; discriminate). subst v. exfalso. apply En.
    assert (n = 0). { destruct n; auto. destruct F as [F1 _]. specialize (F1 0 ltac:(lia)). discriminate. } now subst n.
  - destruct (append_each_ok v n I F (S (length h)) 0 h Nil Nil []) as (h1 & s1 & l1 & E1 & B1); try lia.
    { apply build_init; auto. }
    change (ncdr h 0 v) with v in E1. rewrite E1. cbn [bind].
    assert (X : nullp (ncdr h n v) = false) by (destruct (ncdr h n v); auto; congruence). rewrite X. reflexivity.
Qed.

(** ** alist-copy *)
Definition acopy_elt (hh : heap) (x y : val) : Prop :=
  if pairp x then exists a k v, y = Ptr a /\ length h <= a /\ cell h x = Ok (k, v) /\ nth_error hh a = Some (k, v) else y = x.
Lemma alist_elt_ok : forall hh s l ys x, build h hh s l ys -> in_heap h x ->
  exists h' s' l' y, alist_copy_elt hh s l x = Ok (h', s', l') /\ build h h' s' l' (ys ++ [y]) /\ length hh <= length h' /\
    acopy_elt h' x y /\ (forall b, b < length hh -> Ptr b <> l -> nth_error h' b = nth_error hh b) /\
    (exists a, l' = Ptr a /\ length hh <= a) /\ (pairp x = true -> y <> l').
Proof.
  intros hh s l ys x B Ix. unfold alist_copy_elt, acopy_elt. destruct (pairp x) eqn:Px.
  - destruct x as [|z|a]; try discriminate. cbn in Ix.
    destruct (closed_cell h a C Ix) as (k & v & E & Ik & Iv).
    assert (E' : nth_error hh a = Some (k, v)) by (rewrite (bu_pres _ _ _ _ _ B) by auto; exact E).
    rewrite (car_at _ _ _ _ E'), (cdr_at _ _ _ _ E'). cbn [bind cons_].
    assert (Lh : length h <= length hh) by apply B.
    assert (B0 : build h (hh ++ [(k, v)]) s l ys).
    { constructor.
      - apply closed_cons; [apply B| |]; (eapply in_heap_mono; [|eassumption]); rewrite ?app_length; lia.
      - eapply preserved_trans; [apply B|apply B|apply preserved_cons].
      - rewrite app_length. lia.
      - destruct (bu_shape _ _ _ _ _ B) as [X|(addrs & ys' & y' & a' & E1 & E2 & S & F)]; auto. right.
        exists addrs, ys', y', a'. split; auto. split; auto. split; auto. eapply seg_preserved; eauto. apply preserved_cons. }
    destruct (append1_ok h _ s l ys (Ptr (length hh)) B0) as (h1 & s1 & l1 & E1 & B1 & G1 & K1).
    { cbn. rewrite app_length. cbn. lia. }
    exists h1, s1, l1, (Ptr (length hh)). split; auto. split; auto. rewrite app_length in G1. cbn in G1. split; [lia|]. split.
    + exists (length hh), k, v. split; auto. split; [lia|]. split; [unfold cell; now rewrite E|].
      rewrite K1; [apply nth_new|rewrite app_length; cbn; lia|].
      destruct (bu_shape _ _ _ _ _ B) as [(_ & _ & ->)|(addrs & ys' & y' & a' & _ & -> & S & F)]; [discriminate|].
      pose proof (seg_bounds _ _ _ _ _ S) as Bd. rewrite Forall_app in Bd. destruct Bd as [_ Bd]. inversion Bd; subst. intro X. injection X as X. lia.
    + split; [intros b Hb Hne; rewrite K1; auto; [now apply preserved_cons|rewrite app_length; lia]|].
      apply append1_last in E1. rewrite app_length in E1. cbn in E1. split.
      * exists (length hh + 1). split; auto. lia.
      * intros _. rewrite E1. intro X. injection X. lia.
  - destruct (append1_ok h hh s l ys x B) as (h1 & s1 & l1 & E1 & B1 & G1 & K1).
    { eapply in_heap_mono; [apply B|auto]. }
    exists h1, s1, l1, x. split; auto. split; auto. split; auto. split; auto. split; auto. apply append1_last in E1. split; [eauto|discriminate].
Qed.
(** entries already copied survive later allocation: they are fresh cells that are
    not the last spine cell *)
Definition copied (hh : heap) (l : val) (xs ys : list val) : Prop :=
  Forall2 (fun x y => acopy_elt hh x y /\ (pairp x = true -> y <> l)) xs ys.
Lemma copied_step : forall hh h' l l' xs ys, copied hh l xs ys -> length hh <= length h' ->
  (forall b, b < length hh -> Ptr b <> l -> nth_error h' b = nth_error hh b) ->
  (forall a, l' = Ptr a -> length hh <= a) -> copied h' l' xs ys.
Proof.
  intros hh h' l l' xs ys H L K Hl. induction H as [|x y xs ys [A N] H IH]; constructor; auto.
  unfold acopy_elt in *. destruct (pairp x) eqn:Px; [|split; auto; discriminate].
  destruct A as (a & k & v & -> & La & Ec & En). 
  assert (a < length hh) by (apply nth_error_Some; congruence).
  split.
  - exists a, k, v. split; auto. split; auto. split; auto. rewrite K; auto.
  - intros _ X. specialize (Hl a (eq_sym X)). lia.
Qed.
Lemma alist_step : forall hh s l xs ys x, build h hh s l ys -> copied hh l xs ys -> in_heap h x ->
  exists h' s' l' y, alist_copy_elt hh s l x = Ok (h', s', l') /\ build h h' s' l' (ys ++ [y]) /\ copied h' l' (xs ++ [x]) (ys ++ [y]).
Proof.
  intros hh s l xs ys x B Cp Ix. destruct (alist_elt_ok hh s l ys x B Ix) as (h1 & s1 & l1 & y & E & B1 & G & A & K & (a & El & La) & Ne).
  exists h1, s1, l1, y. split; auto. split; auto. apply Forall2_app; [|constructor; auto].
  eapply copied_step; eauto. intros a0 Ha. rewrite El in Ha. injection Ha as <-. exact La.
Qed.
Lemma acopy_loop_finite : forall v n, in_heap h v -> finite h v n -> forall fuel i hh s l ys, 2 * i <= n -> n - 2 * i < 2 * fuel ->
  build h hh s l ys -> copied hh l (elts h v 0 (2 * i)) ys ->
  exists h' s' l' ys', alist_copy_loop fuel hh s l (ncdr h (2 * i) v) (ncdr h i v) = Ok (h', s', ncdr h n v) /\ build h h' s' l' ys' /\
     copied h' l' (elts h v 0 n) ys'.
Proof.
  intros v n I F. induction fuel as [|fuel IH]; intros i hh s l ys L1 L2 B Cp; [lia|]. cbn [alist_copy_loop]. destruct F as [F1 F2].
  destruct (Nat.eq_dec (2 * i) n) as [E|NE].
  - rewrite E in *. rewrite F2. cbn [negb]. eauto 8.
  - assert (P0 : pairp (ncdr h (2 * i) v) = true) by (apply F1; lia). rewrite P0. cbn [negb].
    rewrite (car_ncar h hh) by (auto; apply B). cbn [bind].
    destruct (alist_step hh s l _ _ (ncar h v (2 * i)) B Cp) as (h1 & s1 & l1 & y1 & E1 & B1 & Cp1); [now apply ncar_in|].
    rewrite E1. cbn [bind]. rewrite (cdr_ncdr h h1) by (auto; apply B1). cbn [bind]. rewrite <- (elts_S h v 0) in Cp1.
    destruct (Nat.eq_dec (S (2 * i)) n) as [E|NE2].
    + rewrite E in *. rewrite F2. cbn [negb]. eauto 8.
    + assert (P1 : pairp (ncdr h (S (2 * i)) v) = true) by (apply F1; lia). rewrite P1. cbn [negb].
      rewrite (car_ncar h h1) by (auto; apply B1). cbn [bind].
      destruct (alist_step h1 s1 l1 _ _ (ncar h v (S (2 * i))) B1 Cp1) as (h2 & s2 & l2 & y2 & E2 & B2 & Cp2); [now apply ncar_in|].
      rewrite E2. cbn [bind]. rewrite !(cdr_ncdr h h2) by (auto; try apply B2; apply F1; lia). cbn [bind]. rewrite twice.
      rewrite <- (elts_S h v 0) in Cp2. replace (S (S (2 * i))) with (2 * S i) in Cp2 by lia.
      destruct (val_eqb _ _) eqn:Ev.
      * apply val_eqb_eq in Ev. exfalso. apply (meet_only_endless h v n (S i)); auto; try lia. split; auto.
      * eapply IH; eauto; lia.
Qed.
Lemma acopy_loop_endless : forall v m, in_heap h v -> endless h v -> ncdr h (2 * m) v = ncdr h m v ->
  forall fuel i hh s l ys, i < m -> m - i <= fuel -> build h hh s l ys -> copied hh l (elts h v 0 (2 * i)) ys ->
  alist_copy_loop fuel hh s l (ncdr h (2 * i) v) (ncdr h i v) = Err.
Proof.
  intros v m I F M. induction fuel as [|fuel IH]; intros i hh s l ys L1 L2 B Cp; [lia|]. cbn [alist_copy_loop].
  rewrite (F (2 * i)). cbn [negb]. rewrite (car_ncar h hh) by (auto; apply B). cbn [bind].
  destruct (alist_step hh s l _ _ (ncar h v (2 * i)) B Cp) as (h1 & s1 & l1 & y1 & E1 & B1 & Cp1); [now apply ncar_in|].
  rewrite E1. cbn [bind]. rewrite (cdr_ncdr h h1) by (auto; apply B1). cbn [bind]. rewrite <- (elts_S h v 0) in Cp1.
  rewrite (F (S (2 * i))). cbn [negb]. rewrite (car_ncar h h1) by (auto; apply B1). cbn [bind].
  destruct (alist_step h1 s1 l1 _ _ (ncar h v (S (2 * i))) B1 Cp1) as (h2 & s2 & l2 & y2 & E2 & B2 & Cp2); [now apply ncar_in|].
  rewrite E2. cbn [bind]. rewrite !(cdr_ncdr h h2) by (auto; apply B2). cbn [bind]. rewrite twice.
  rewrite <- (elts_S h v 0) in Cp2. replace (S (S (2 * i))) with (2 * S i) in Cp2 by lia.
  destruct (val_eqb _ _) eqn:Ev; auto. apply val_eqb_neq in Ev. assert (S i <> m) by congruence. eapply IH; eauto; lia.
Qed.

(** ** make-list, list-copy with a range *)
Lemma make_list_ok : forall fill n hh s l xs, in_heap h fill -> build h hh s l xs ->
  exists h' s' l', make_list_loop n hh s l fill = Ok (h', s') /\ build h h' s' l' (xs ++ repeat fill n).
Proof.
  intros fill. induction n as [|n IH]; intros hh s l xs I B; cbn [make_list_loop repeat].
  - rewrite app_nil_r. eauto.
  - destruct (append1_ok h hh s l _ fill B) as (h1 & s1 & l1 & E1 & B1 & G1 & _).
    { eapply in_heap_mono; [apply B|auto]. }
    rewrite E1. cbn [bind]. destruct (IH h1 s1 l1 _ I B1) as (h2 & s2 & l2 & E2 & B2).
    rewrite <- app_assoc in B2. eauto.
Qed.
Lemma range_copy_ok : forall v i, in_heap h v -> forall k j hh s l xs, build h hh s l xs ->
  (forall q, i <= q < i + j + k -> pairp (ncdr h q v) = true) ->
  exists h' s' l', range_copy_loop k hh s l (ncdr h (i + j) v) = Ok (h', s') /\ build h h' s' l' (xs ++ elts h v (i + j) k).
Proof.
  intros v i I. induction k as [|k IH]; intros j hh s l xs B F; cbn [range_copy_loop].
  - cbn. rewrite app_nil_r. eauto.
  - rewrite (F (i + j)) by lia. cbn [negb]. rewrite (car_ncar h hh) by (auto; try apply B; apply F; lia). cbn [bind].
    destruct (append1_ok h hh s l _ (ncar h v (i + j)) B) as (h1 & s1 & l1 & E1 & B1 & G1 & _).
    { eapply in_heap_mono; [apply B|]. now apply ncar_in. }
    rewrite E1. cbn [bind]. rewrite (cdr_ncdr h h1) by (auto; try apply B1; apply F; lia). cbn [bind].
    destruct (IH (S j) h1 s1 l1 _ B1) as (h2 & s2 & l2 & E2 & B2).
    { intros q Hq. apply F. lia. }
    rewrite <- plus_n_Sm in *. rewrite E2. exists h2, s2, l2. split; auto. rewrite <- app_assoc in B2. exact B2.
Qed.
Lemma range_copy_short : forall v n, in_heap h v -> finite h v n -> forall k i hh s l xs, build h hh s l xs -> i <= n -> n < i + k ->
  range_copy_loop k hh s l (ncdr h i v) = Err.
Proof.
  intros v n I F. induction k as [|k IH]; intros i hh s l xs B L1 L2; [lia|]. cbn [range_copy_loop]. destruct F as [F1 F2].
  destruct (Nat.eq_dec i n) as [->|NE].
  - rewrite F2. reflexivity.
  - rewrite (F1 i) by lia. cbn [negb]. rewrite (car_ncar h hh) by (auto; try apply B; apply F1; lia). cbn [bind].
    destruct (append1_ok h hh s l _ (ncar h v i) B) as (h1 & s1 & l1 & E1 & B1 & G1 & _).
    { eapply in_heap_mono; [apply B|]. now apply ncar_in. }
    rewrite E1. cbn [bind]. rewrite (cdr_ncdr h h1) by (auto; try apply B1; apply F1; lia). cbn [bind]. eapply IH; eauto; lia.
Qed.

(** ** list-tail, list-ref *)
Lemma list_tail_loop_ok : forall v i cnt, in_heap h v -> (forall k, k < i + cnt -> pairp (ncdr h k v) = true) ->
  list_tail_loop cnt h (ncdr h i v) = Ok (Some (ncdr h (i + cnt) v)).
Proof.
  intros v i cnt I. revert i. induction cnt as [|c IH]; intros i F; cbn [list_tail_loop].
  - now rewrite Nat.add_0_r.
  - rewrite (F i) by lia. cbn [negb]. rewrite cdr_x by (auto; apply F; lia). cbn [bind].
    rewrite IH by (intros; apply F; lia). do 3 f_equal. lia.
Qed.
Lemma list_tail_loop_short : forall v n i cnt, in_heap h v -> finite h v n -> i <= n -> n < i + cnt ->
  list_tail_loop cnt h (ncdr h i v) = Ok None.
Proof.
  intros v n i cnt I F. revert i. induction cnt as [|c IH]; intros i L1 L2; [lia|]. cbn [list_tail_loop].
  destruct (Nat.eq_dec i n) as [->|NE].
  - destruct F as [_ F2]. rewrite F2. reflexivity.
  - pose proof F as [F1 F2]. rewrite (F1 i) by lia. cbn [negb]. rewrite cdr_x by (auto; apply F1; lia). cbn [bind]. apply IH; lia.
Qed.

(** ** member and assoc *)
Section Find.
Variable eqm : val -> val -> bool.
Lemma member_loop_ok : forall v n obj, in_heap h v -> finite h v n -> forall fuel i, i <= n -> n - i < fuel ->
  (forall k, k < i -> eqm obj (ncar h v k) = false) ->
  (exists k, k < n /\ eqm obj (ncar h v k) = true /\ (forall j, j < k -> eqm obj (ncar h v j) = false) /\
     member_loop eqm fuel h obj (ncdr h i v) = Ok (ncdr h k v)) \/
  ((forall k, k < n -> eqm obj (ncar h v k) = false) /\ member_loop eqm fuel h obj (ncdr h i v) = Ok (Atom 0)).
Proof.
  intros v n obj I F. induction fuel as [|fuel IH]; intros i L1 L2 Hn; [lia|]. cbn [member_loop]. destruct F as [F1 F2].
  destruct (Nat.eq_dec i n) as [->|NE].
  - right. rewrite F2. auto.
  - rewrite (F1 i) by lia. cbn [negb]. rewrite (car_ncar h h) by (auto; try apply preserved_refl; apply F1; lia). cbn [bind].
    destruct (eqm obj (ncar h v i)) eqn:E.
    + left. exists i. split; [lia|]. auto.
    + rewrite cdr_x by (auto; apply F1; lia). cbn [bind]. apply IH; try lia.
      intros k Hk. destruct (Nat.eq_dec k i) as [->|]; auto. apply Hn. lia.
Qed.
(** the key of an alist entry in the original heap *)
Definition hitb (obj x : val) : bool := match x with Ptr a => match nth_error h a with Some (k, _) => eqm obj k | None => false end | _ => false end.
Lemma alist_hit_ok : forall hh obj x, preserved h hh -> in_heap h x -> alist_hit eqm obj hh x = Ok (hitb obj x).
Proof.
  intros hh obj x P I. unfold alist_hit, hitb. destruct x as [|z|a]; auto. cbn [pairp]. cbn in I.
  destruct (closed_cell h a C I) as (k & d & E & _). unfold car, cell. rewrite (P a I), E. reflexivity.
Qed.
Lemma assoc_loop_ok : forall v n obj, in_heap h v -> finite h v n -> forall fuel i, i <= n -> n - i < fuel ->
  (forall k, k < i -> hitb obj (ncar h v k) = false) ->
  (exists k, k < n /\ hitb obj (ncar h v k) = true /\ (forall j, j < k -> hitb obj (ncar h v j) = false) /\
     assoc_loop eqm fuel h obj (ncdr h i v) = Ok (ncar h v k)) \/
  ((forall k, k < n -> hitb obj (ncar h v k) = false) /\ assoc_loop eqm fuel h obj (ncdr h i v) = Ok (Atom 0)).
Proof.
  intros v n obj I F. induction fuel as [|fuel IH]; intros i L1 L2 Hn; [lia|]. cbn [assoc_loop]. destruct F as [F1 F2].
  destruct (Nat.eq_dec i n) as [->|NE].
  - right. rewrite F2. auto.
  - rewrite (F1 i) by lia. cbn [negb]. rewrite (car_ncar h h) by (auto; try apply preserved_refl; apply F1; lia). cbn [bind].
    rewrite alist_hit_ok by (try apply preserved_refl; now apply ncar_in). cbn [bind].
    destruct (hitb obj (ncar h v i)) eqn:E.
    + left. exists i. split; [lia|]. auto.
    + rewrite cdr_x by (auto; apply F1; lia). cbn [bind]. apply IH; try lia.
      intros k Hk. destruct (Nat.eq_dec k i) as [->|]; auto. apply Hn. lia.
Qed.
End Find.

(** ** delete and alist-delete *)
Section Delete.
Variable hit : heap -> val -> res bool.
Variable hb : val -> bool.
Hypothesis hit_ok : forall hh x, preserved h hh -> in_heap h x -> hit hh x = Ok (hb x).
Definition keep (x : val) : bool := negb (hb x).

Lemma catch_up_ok : forall v n, in_heap h v -> finite h v n -> forall fuel p k hh s l pre, p <= k -> k <= n -> k - p < fuel ->
  build h hh s l pre ->
  exists h' s' l', catch_up fuel hh s l (ncdr h p v) (ncdr h k v) = Ok (h', s', l') /\ build h h' s' l' (pre ++ elts h v p (k - p)).
Proof.
  intros v n I F. induction fuel as [|fuel IH]; intros p k hh s l pre L1 L2 L3 B; [lia|]. cbn [catch_up]. destruct F as [F1 F2].
  destruct (Nat.eq_dec p k) as [->|NE].
  - rewrite (proj2 (val_eqb_eq _ _) eq_refl). rewrite Nat.sub_diag. cbn. rewrite app_nil_r. eauto.
  - assert (Ev : val_eqb (ncdr h p v) (ncdr h k v) = false) by (apply val_eqb_neq, (finite_distinct h v n); auto; lia).
    rewrite Ev. rewrite (car_ncar h hh) by (auto; try apply B; apply F1; lia). cbn [bind].
    destruct (append1_ok h hh s l _ (ncar h v p) B) as (h1 & s1 & l1 & E1 & B1 & G1 & _).
    { eapply in_heap_mono; [apply B|]. now apply ncar_in. }
    rewrite E1. cbn [bind]. rewrite (cdr_ncdr h h1) by (auto; try apply B1; apply F1; lia). cbn [bind].
    destruct (IH (S p) k h1 s1 l1 _ ltac:(lia) ltac:(lia) ltac:(lia) B1) as (h2 & s2 & l2 & E2 & B2).
    exists h2, s2, l2. split; auto. rewrite <- app_assoc in B2. replace (k - p) with (S (k - S p)) by lia. exact B2.
Qed.
Lemma delete_loop_ok : forall v n, in_heap h v -> finite h v n -> n <= length h -> forall fuel k p hh s l, p <= k -> k <= n -> n - k < fuel ->
  build h hh s l (filter keep (elts h v 0 p)) -> forallb keep (elts h v p (k - p)) = true ->
  exists h' s' l' p', delete_loop hit fuel (length h) hh s l (ncdr h p v) (ncdr h k v) = Ok (h', s', l', ncdr h p' v) /\ p' <= n /\
    build h h' s' l' (filter keep (elts h v 0 p')) /\ forallb keep (elts h v p' (n - p')) = true.
Proof.
  intros v n I F Ln. induction fuel as [|fuel IH]; intros k p hh s l L1 L2 L3 B K; [lia|]. cbn [delete_loop]. pose proof F as [F1 F2].
  destruct (Nat.eq_dec k n) as [->|NE].
  - rewrite F2. cbn [negb]. exists hh, s, l, p. auto.
  - rewrite (F1 k) by lia. cbn [negb]. rewrite (car_ncar h hh) by (auto; try apply B; apply F1; lia). cbn [bind].
    rewrite hit_ok by (try apply B; now apply ncar_in). cbn [bind].
    destruct (hb (ncar h v k)) eqn:Hb.
    + destruct (catch_up_ok v n I F (S (length h)) p k hh s l _ L1 L2 ltac:(lia) B) as (h1 & s1 & l1 & E1 & B1).
      rewrite E1. cbn [bind]. rewrite (cdr_ncdr h h1) by (auto; try apply B1; apply F1; lia). cbn [bind].
      apply IH; try lia.
      * replace (S k) with (p + (S (k - p))) by lia. rewrite elts_app, filter_app, elts_S. cbn [Nat.add].
        rewrite filter_app. replace (p + (k - p)) with k by lia. cbn [filter]. unfold keep at 3. rewrite Hb. cbn [negb]. rewrite app_nil_r.
        assert (Fk : filter keep (elts h v p (k - p)) = elts h v p (k - p)).
        { clear - K. revert K. generalize (elts h v p (k - p)). induction l as [|x l IHl]; cbn; intro K; auto. apply andb_true_iff in K. destruct K as [K1 K2]. rewrite K1. f_equal. auto. }
        rewrite Fk. exact B1.
      * rewrite Nat.sub_diag. reflexivity.
    + rewrite (cdr_ncdr h hh) by (auto; try apply B; apply F1; lia). cbn [bind]. apply IH; try lia; auto.
      replace (S k - p) with (S (k - p)) by lia. rewrite elts_S, forallb_app, K. cbn. replace (p + (k - p)) with k by lia.
      unfold keep. now rewrite Hb.
Qed.
Lemma filter_all : forall f (l : list val), forallb f l = true -> filter f l = l.
Proof. induction l as [|x l IH]; cbn; intro K; auto. apply andb_true_iff in K. destruct K as [K1 K2]. rewrite K1. f_equal. auto. Qed.
Lemma delete_gen_ok : forall v n, in_heap h v -> finite h v n -> n <= length h -> ncdr h n v = Nil ->
  exists h' r addrs, delete_gen hit h v = Ok (h', r) /\ closed h' /\ preserved h h' /\ seg h' r addrs (filter keep (elts h v 0 n)) Nil.
Proof.
  intros v n I F Ln En. unfold delete_gen. destruct (nullp v) eqn:Nv.
  - assert (v = Nil) by (destruct v; auto; discriminate). subst v.
    assert (n = 0). { destruct n; auto. destruct F as [F1 _]. specialize (F1 0 ltac:(lia)). discriminate. } subst n.
    exists h, Nil, []. split; auto. split; auto. split; [apply preserved_refl|constructor].
  - destruct (delete_loop_ok v n I F Ln (S (length h)) 0 0 h Nil Nil) as (h1 & s1 & l1 & p & E1 & Lp & B1 & K1); try lia.
    { apply build_init; auto. } { reflexivity. }
    change (ncdr h 0 v) with v in E1. rewrite E1. cbn [bind].
    assert (Split : filter keep (elts h v 0 n) = filter keep (elts h v 0 p) ++ elts h v p (n - p)).
    { replace n with (p + (n - p)) at 1 by lia. rewrite elts_app, filter_app. cbn [Nat.add]. f_equal. now apply filter_all. }
    destruct (tail_list h v n p C I F Lp) as (ta & St). rewrite En in St.
    destruct (val_eqb v (ncdr h p v)) eqn:Ev.
    + apply val_eqb_eq in Ev. assert (p = 0). { destruct p; auto. exfalso. destruct F as [F1 F2]. apply (finite_distinct h v n 0 (S p)); auto; try lia. }
      subst p. rewrite Split. cbn [elts seq map filter app]. change (ncdr h 0 v) with v in St.
      exists h1, v, ta. split; auto. split; [apply B1|]. split; [apply B1|]. eapply seg_preserved; [exact St|apply B1].
    + destruct (nullp s1) eqn:Ns.
      * apply (build_start_null _ _ _ _ _ B1) in Ns. rewrite Split, Ns. cbn [app].
        exists h1, (ncdr h p v), ta. split; auto. split; [apply B1|]. split; [apply B1|]. eapply seg_preserved; [exact St|apply B1].
      * assert (Hn : filter keep (elts h v 0 p) <> []) by (intro X; apply (build_start_null _ _ _ _ _ B1) in X; congruence).
        destruct (pairp (ncdr h p v)) eqn:Pp.
        -- destruct (build_finish _ _ _ _ _ (ncdr h p v) B1 Hn) as (h2 & addrs & E2 & C2 & P2 & G2 & S2 & F2 & N2).
           { eapply in_heap_mono; [apply B1|]. now apply ncdr_in. }
           rewrite E2. cbn [bind]. exists h2, s1, (addrs ++ ta). split; auto. split; auto. split; auto. rewrite Split.
           eapply seg_app; [exact S2|]. eapply seg_preserved; [exact St|exact P2].
        -- assert (p = n). { destruct (Nat.eq_dec p n); auto. destruct F as [F1 _]. rewrite F1 in Pp; [discriminate|lia]. }
           subst p. rewrite Split, Nat.sub_diag. cbn [elts seq map]. rewrite app_nil_r.
           destruct (build_seg _ _ _ _ _ B1) as (addrs & S & _). exists h1, s1, addrs. split; auto. split; [apply B1|]. split; [apply B1|]. exact S.
Qed.
End Delete.

(** ** delete-duplicates *)
Section Dup.
Variable eqm : val -> val -> bool.
(** keep the first of each group: [kept] is what has been kept so far *)
Fixpoint dedup (kept xs : list val) : list val :=
  match xs with
  | [] => kept
  | x :: r => if existsb (eqm x) kept then dedup kept r else dedup (kept ++ [x]) r
  end.
Lemma member_answer : forall hh s addrs ys x, closed hh -> in_heap hh s -> seg hh s addrs ys Nil ->
  exists m, member eqm hh x s = Ok m /\ val_eqb m (Atom 0) = negb (existsb (eqm x) ys).
Proof.
  intros hh s addrs ys x Ch Is Sg.
  assert (F : finite hh s (length ys)) by (apply (list_of_finite hh s ys Nil); split; [intros (a & X); discriminate|eauto]).
  assert (Ln : length ys <= length hh).
  { destruct (finite_or_endless hh s Ch Is) as [(n & Ln & F')|E]; [rewrite (finite_unique _ _ _ _ F F'); auto|exfalso; eapply finite_not_endless; eauto]. }
  pose proof (seg_elts _ _ _ _ _ Sg) as Ey. unfold member.
  assert (M : forall fuel i, i <= length ys -> length ys - i < fuel -> exists m, member_loop eqm fuel hh x (ncdr hh i s) = Ok m /\
     val_eqb m (Atom 0) = negb (existsb (eqm x) (elts hh s i (length ys - i)))).
  { induction fuel as [|fuel IH]; intros i L1 L2; [lia|]. cbn [member_loop]. destruct F as [F1 F2].
    destruct (Nat.eq_dec i (length ys)) as [->|NE].
    - rewrite F2, Nat.sub_diag. cbn. eauto.
    - rewrite (F1 i) by lia. cbn [negb]. rewrite (car_ncar hh hh) by (auto; try apply preserved_refl; apply F1; lia). cbn [bind].
      replace (length ys - i) with (Datatypes.S (length ys - S i)) by lia. unfold elts. cbn [seq map existsb].
      destruct (eqm x (ncar hh s i)) eqn:E.
      + exists (ncdr hh i s). split; auto. cbn. specialize (F1 i ltac:(lia)). destruct (ncdr hh i s); try discriminate. reflexivity.
      + rewrite cdr_ncdr by (auto; try apply preserved_refl; apply F1; lia). cbn [bind orb]. apply IH; lia. }
  destruct (M (S (length hh)) 0) as (m & E & A); try lia. exists m. rewrite Nat.sub_0_r in A. change (ncdr hh 0 s) with s in E. split; auto. rewrite A, <- Ey. reflexivity.
Qed.
Lemma build_start_in : forall hh s l ys, build h hh s l ys -> in_heap hh s.
Proof.
  intros hh s l ys B. destruct (build_seg _ _ _ _ _ B) as (addrs & S & _). inversion S; subst; cbn; auto. apply nth_error_Some. congruence.
Qed.
Lemma dup_loop_ok : forall v n, in_heap h v -> finite h v n -> forall fuel i hh s l kept, i <= n -> n - i < fuel -> build h hh s l kept ->
  exists h' s' l', delete_dup_loop eqm fuel hh s l (ncdr h i v) = Ok (h', s', l', ncdr h n v) /\ build h h' s' l' (dedup kept (elts h v i (n - i))).
Proof.
  intros v n I F. induction fuel as [|fuel IH]; intros i hh s l kept L1 L2 B; [lia|]. cbn [delete_dup_loop]. pose proof F as [F1 F2].
  destruct (Nat.eq_dec i n) as [->|NE].
  - rewrite F2, Nat.sub_diag. cbn. eauto 6.
  - rewrite (F1 i) by lia. cbn [negb]. rewrite (car_ncar h hh) by (auto; try apply B; apply F1; lia). cbn [bind].
    destruct (build_seg _ _ _ _ _ B) as (addrs & Sg & _).
    destruct (member_answer hh s addrs kept (ncar h v i) (bu_closed _ _ _ _ _ B) (build_start_in _ _ _ _ B) Sg) as (m & Em & Am).
    rewrite Em. cbn [bind]. rewrite Am.
    replace (n - i) with (S (n - S i)) by lia. unfold elts. cbn [seq map dedup]. fold (elts h v (S i) (n - S i)).
    destruct (existsb (eqm (ncar h v i)) kept); cbn [negb].
    + rewrite (cdr_ncdr h hh) by (auto; try apply B; apply F1; lia). cbn [bind]. apply IH; auto; lia.
    + destruct (append1_ok h hh s l _ (ncar h v i) B) as (h1 & s1 & l1 & E1 & B1 & G1 & _).
      { eapply in_heap_mono; [apply B|]. now apply ncar_in. }
      rewrite E1. cbn [bind]. rewrite (cdr_ncdr h h1) by (auto; try apply B1; apply F1; lia). cbn [bind]. apply IH; auto; lia.
Qed.
End Dup.

(** ** reverse *)
Lemma reverse_loop_ok : forall v n tail, in_heap h v -> in_heap h tail -> finite h v n -> forall fuel i hh r d addrs, i <= n -> n - i < fuel ->
  closed hh -> preserved h hh -> length h <= length hh -> r < length hh -> length h <= r ->
  nth_error hh r = Some (Nil, d) -> seg hh d addrs (rev (elts h v 0 i)) tail -> Forall (fun b => length h <= b /\ b <> r) addrs ->
  exists h' r' d' addrs', reverse2_loop fuel hh (Ptr r) (ncdr h i v) = Ok (h', Ptr r') /\ closed h' /\ preserved h h' /\
    nth_error h' r' = Some (Nil, d') /\ seg h' d' addrs' (rev (elts h v 0 n)) tail /\ Forall (fun b => length h <= b) addrs'.
Proof.
  intros v n tail I It F. induction fuel as [|fuel IH]; intros i hh r d addrs L1 L2 Ch P Lh Lr Lr0 Er S Fa; [lia|]. cbn [reverse2_loop]. pose proof F as [F1 F2].
  destruct (Nat.eq_dec i n) as [->|NE].
  - rewrite F2. cbn [negb]. exists hh, r, d, addrs. split; auto. split; auto. split; auto. split; auto. split; auto.
    eapply Forall_impl; [|exact Fa]. cbn. tauto.
  - rewrite (F1 i) by lia. cbn [negb]. rewrite (car_ncar h hh) by (auto; apply F1; lia). cbn [bind].
    unfold set_car. rewrite Er. cbn [of_opt bind snd cons_].
    set (x := ncar h v i). set (h1 := store r (x, d) hh).
    assert (Ix : in_heap h x) by now apply ncar_in.
    destruct (closed_cell hh r Ch Lr) as (x0 & d0 & E0 & _ & Id). rewrite Er in E0. injection E0 as <- <-.
    assert (C1 : closed h1) by (apply closed_store; auto; eapply in_heap_mono; [|exact Ix]; auto).
    assert (Ll : length h1 = length hh) by apply store_len.
    assert (P1 : preserved h h1) by (apply preserved_store; auto).
    assert (P2 : preserved h (h1 ++ [(Nil, Ptr r)])).
    { eapply preserved_trans; [|exact P1|apply preserved_cons]. lia. }
    rewrite (cdr_ncdr h (h1 ++ [(Nil, Ptr r)])) by (auto; apply F1; lia). cbn [bind].
    destruct (IH (Datatypes.S i) (h1 ++ [(Nil, Ptr r)]) (length h1) (Ptr r) (r :: addrs)) as (h' & r' & d' & addrs' & X); auto; try lia.
    + apply closed_cons; auto; [exact Logic.I|]. cbn. rewrite app_length. lia.
    + rewrite app_length. lia.
    + rewrite app_length. cbn. lia.
    + apply nth_new.
    + rewrite elts_S, rev_app_distr. cbn [rev app]. econstructor.
      * rewrite nth_error_app1 by lia. apply store_same. exact Lr.
      * eapply seg_frame; [exact S|]. intros b Hb. rewrite Forall_forall in Fa. specialize (Fa b Hb). 
        pose proof (seg_bounds _ _ _ _ _ S) as Bd. rewrite Forall_forall in Bd. specialize (Bd b Hb). cbn in Bd.
        rewrite nth_error_app1 by lia. apply store_other. intro. subst. tauto.
    + constructor; [lia|]. pose proof (seg_bounds _ _ _ _ _ S) as Bd. rewrite Forall_forall in *. intros b Hb. specialize (Fa b Hb). specialize (Bd b Hb). lia.
    + exists h', r', d', addrs'. exact X.
Qed.
Lemma reverse2_ok : forall v n tail, in_heap h v -> in_heap h tail -> finite h v n -> n <= length h ->
  exists h' r addrs, reverse2 h v tail = Ok (h', r) /\ closed h' /\ preserved h h' /\ seg h' r addrs (rev (elts h v 0 n)) tail /\ Forall (fun b => length h <= b) addrs.
Proof.
  intros v n tail I It F Ln. unfold reverse2. destruct (pairp v) eqn:Pv; cbn [negb cons_].
  - destruct (reverse_loop_ok v n tail I It F (S (length h)) 0 (h ++ [(Nil, tail)]) (length h) tail []) as (h' & r' & d' & addrs' & E & Ch & P & En & S & Fa); auto; try lia.
    + apply closed_cons; auto; [exact Logic.I|]. eapply in_heap_mono; [|exact It]. rewrite app_length. lia.
    + apply preserved_cons.
    + rewrite app_length. lia.
    + rewrite app_length. cbn. lia.
    + apply nth_new.
    + constructor.
    + change (ncdr h 0 v) with v in E. rewrite E. cbn [bind]. rewrite (cdr_at _ _ _ _ En). cbn [bind]. exists h', d', addrs'. auto.
  - assert (n = 0). { destruct n; auto. destruct F as [F1 _]. specialize (F1 0 ltac:(lia)). change (pairp v = true) in F1. congruence. }
    subst n. exists h, tail, []. split; auto. split; auto. split; [apply preserved_refl|]. split; constructor.
Qed.
End Old.
