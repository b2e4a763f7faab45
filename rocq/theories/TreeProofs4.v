From Coq Require Import List Bool ZArith Lia Sorting.Sorted Permutation.
From Verif Require Import Outcome TreeModel TreeSpec TreeApi TreeProofs TreeProofs2 TreeProofs3.
Import ListNotations.
Local Open Scope nat_scope.

Section P.
Context {K V : Type}.
Variable cmp : K -> K -> Z.
Hypothesis O : ordering cmp.
Implicit Types (t l r : tree K V) (p : path K V) (e : entry K V) (tc : core K V).

(** ** iterators as cursors *)
Definition cur_ok (l : list (entry K V)) (c : cursor (entry K V)) (it : iter) : Prop :=
  match c with
  | CFresh => it_c it = None /\ it_n it = option_map entry_id (hd_error l) /\ it_p it = option_map entry_id (hd_error (rev l))
  | CAt a x b => l = a ++ x :: b /\ it_c it = Some (entry_id x) /\ it_n it = option_map entry_id (hd_error b)
                 /\ it_p it = option_map entry_id (hd_error (rev a))
  | CPastEnd => it_c it = None /\ it_n it = None /\ it_p it = option_map entry_id (hd_error (rev l))
  | CPastStart => it_c it = None /\ it_p it = None /\ it_n it = option_map entry_id (hd_error l)
  | CDead => it_c it = None /\ it_p it = None /\ it_n it = None
  end.

Lemma not_cleared : forall tc a e b, NoDup (map entry_id (elements (root tc))) -> elements (root tc) = a ++ e :: b ->
  length (elements (root tc)) <> 1 -> node_cleared_p tc (Some (entry_id e)) = false.
Proof.
  intros tc a e b N E L. destruct (locate_hit tc a e b N E) as (c & l & r & p & Lo & A & B).
  unfold node_cleared_p. rewrite Lo. destruct l; auto. destruct r; auto. destruct p; auto.
  cbn in A, B. subst. rewrite E in L. cbn in L. lia.
Qed.

Lemma back_split : forall (l : list (entry K V)),
  match rev l with [] => l = [] | x :: r => l = rev r ++ [x] end.
Proof. intro l. destruct (rev l) eqn:E; rewrite <- (rev_involutive l), E; reflexivity. Qed.

Lemma cur_step_ok : forall tc m c it, NoDup (map entry_id (elements (root tc))) -> length (elements (root tc)) <> 1 ->
  cur_ok (elements (root tc)) c it ->
  cur_ok (elements (root tc)) (cursor_step (elements (root tc)) m c) (if m then iter_next tc it else iter_prev tc it).
Proof.
  intros tc m c it N L H. destruct it as [ic in_ ip]. destruct c as [|a x b| | |]; cbn in H.
  - destruct H as (-> & -> & ->). destruct m; unfold iter_next, iter_prev; cbn [node_cleared_p it_c it_n it_p cursor_step].
    + unfold cursor_at_front. destruct (elements (root tc)) as [|y r] eqn:E; cbn [cur_ok hd_error option_map it_c it_n it_p rev app]; auto.
      repeat split; auto. rewrite <- E in N. now rewrite (advance_ok tc [] y r N E).
    + unfold cursor_at_back. pose proof (back_split (elements (root tc))) as S.
      destruct (rev (elements (root tc))) as [|y r]; cbn [cur_ok hd_error option_map it_c it_n it_p]; [auto|].
      rewrite (retrogress_ok tc (rev r) y [] N S), rev_involutive. auto.
  - destruct H as (E & -> & -> & ->).
    destruct m; unfold iter_next, iter_prev; cbn [it_c it_n it_p];
      rewrite (not_cleared tc a x b N E L); cbn [cursor_step].
    + destruct b as [|y b]; cbn [cur_ok hd_error option_map it_c it_n it_p].
      * rewrite E, rev_app_distr. cbn. auto.
      * rewrite E at 1. repeat split; auto; [now rewrite <- app_assoc| |now rewrite rev_app_distr].
        eapply advance_ok; auto. rewrite E. instantiate (1 := a ++ [x]). now rewrite <- app_assoc.
    + pose proof (back_split a) as S. destruct b; destruct (rev a) as [|y a'];
        cbn [cur_ok hd_error option_map it_c it_n it_p]; subst; cbn [app] in *; rewrite ?E; auto;
        rewrite <- app_assoc in E; cbn [app] in E; rewrite <- app_assoc;
        rewrite (retrogress_ok tc (rev a') y _ N E), rev_involutive; auto.
  - destruct H as (-> & -> & ->). destruct m; unfold iter_next, iter_prev; cbn [node_cleared_p it_c it_n it_p cursor_step].
    + cbn. auto.
    + unfold cursor_at_back. pose proof (back_split (elements (root tc))) as S.
      destruct (rev (elements (root tc))) as [|y r]; cbn [cur_ok hd_error option_map it_c it_n it_p]; [auto|].
      rewrite (retrogress_ok tc (rev r) y [] N S), rev_involutive. auto.
  - destruct H as (-> & -> & ->). destruct m; unfold iter_next, iter_prev; cbn [node_cleared_p it_c it_n it_p cursor_step].
    + unfold cursor_at_front. destruct (elements (root tc)) as [|y r] eqn:E; cbn [cur_ok hd_error option_map it_c it_n it_p rev app]; auto.
      repeat split; auto. rewrite <- E in N. now rewrite (advance_ok tc [] y r N E).
    + cbn. auto.
  - destruct H as (-> & -> & ->). destruct m; cbn; auto.
Qed.

Lemma iter_run_ok : forall tc moves c it, NoDup (map entry_id (elements (root tc))) -> length (elements (root tc)) <> 1 ->
  cur_ok (elements (root tc)) c it ->
  iter_run tc moves it = cursor_run (elements (root tc)) moves c.
Proof.
  intros tc moves. induction moves as [|m r IH]; intros c it N L H; cbn [iter_run cursor_run]; auto.
  pose proof (cur_step_ok tc m c it N L H) as H'. rewrite (IH _ _ N L H'). f_equal.
  destruct (cursor_step (elements (root tc)) m c) as [|a x b| | |]; cbn in H'; destruct H' as (H1 & H2 & H3);
    cbn [cursor_elem]; try (rewrite H1; reflexivity).
  rewrite H2. now rewrite (node_at_ok tc a x b N H1).
Qed.

(** ** comparing two trees *)
Lemma eq_loop_ok : forall (keqb : K -> K -> bool) (veqb : option V -> option V -> bool), (forall x y, keqb x y = true <-> x = y) -> (forall x y, veqb x y = true <-> x = y) ->
  forall la lb tca tcb a b ia ib f,
  NoDup (map entry_id (elements (root tca))) -> NoDup (map entry_id (elements (root tcb))) ->
  elements (root tca) = a ++ la -> elements (root tcb) = b ++ lb ->
  it_n ia = option_map entry_id (hd_error la) -> it_n ib = option_map entry_id (hd_error lb) ->
  length la < f ->
  exists r : bool, core_eq_loop keqb veqb f tca tcb ia ib = Some r /\ (r = true <-> kvs la = kvs lb).
Proof.
  intros keqb veqb Hk Hv. induction la as [|x la IH]; intros lb tca tcb a b ia ib f Na Nb Ea Eb Ha Hb Hf;
    (destruct f; [cbn in Hf; lia|]); cbn [core_eq_loop].
  - assert (Q : it_c (iter_next tca ia) = None) by (unfold iter_next; rewrite Ha; destruct (node_cleared_p _ _); reflexivity).
    rewrite Q. destruct lb as [|y lb].
    + assert (Q' : it_c (iter_next tcb ib) = None) by (unfold iter_next; rewrite Hb; destruct (node_cleared_p _ _); reflexivity).
      rewrite Q'. exists true. cbn. tauto.
    + assert (Q' : it_c (iter_next tcb ib) = Some (entry_id y)) by (unfold iter_next; rewrite Hb; destruct (node_cleared_p _ _); reflexivity).
      rewrite Q'. exists false. cbn. split; [reflexivity|split; intros; discriminate].
  - assert (Q : it_c (iter_next tca ia) = Some (entry_id x)) by (unfold iter_next; rewrite Ha; destruct (node_cleared_p _ _); reflexivity).
    rewrite Q. destruct lb as [|y lb].
    + assert (Q' : it_c (iter_next tcb ib) = None) by (unfold iter_next; rewrite Hb; destruct (node_cleared_p _ _); reflexivity).
      rewrite Q'. exists false. cbn. split; [reflexivity|split; intros; discriminate].
    + assert (Q' : it_c (iter_next tcb ib) = Some (entry_id y)) by (unfold iter_next; rewrite Hb; destruct (node_cleared_p _ _); reflexivity).
      rewrite Q', (node_at_ok _ _ _ _ Na Ea), (node_at_ok _ _ _ _ Nb Eb).
      destruct x as [[i1 k1] v1], y as [[i2 k2] v2].
      destruct (keqb k1 k2) eqn:E1; cbn [negb orb].
      2:{ exists false. split; auto. split; [discriminate|]. intro X. cbn in X. injection X as X1 X2 X3.
          apply Hk in X1. congruence. }
      destruct (veqb v1 v2) eqn:E2; cbn [negb].
      2:{ exists false. split; auto. split; [discriminate|]. intro X. cbn in X. injection X as X1 X2 X3.
          apply Hv in X2. congruence. }
      apply Hk in E1. apply Hv in E2. subst.
      destruct (IH lb tca tcb (a ++ [(i1, k2, v2)]) (b ++ [(i2, k2, v2)]) (iter_next tca ia) (iter_next tcb ib) f)
        as (r & R1 & R2); auto.
      * now rewrite <- app_assoc.
      * now rewrite <- app_assoc.
      * unfold iter_next. rewrite Ha. cbn [hd_error option_map].
        rewrite (advance_ok _ _ _ _ Na Ea). destruct (node_cleared_p _ _); reflexivity.
      * unfold iter_next. rewrite Hb. cbn [hd_error option_map].
        rewrite (advance_ok _ _ _ _ Nb Eb). destruct (node_cleared_p _ _); reflexivity.
      * cbn in Hf. lia.
      * exists r. split; auto. rewrite R2. cbn. split; intro X; [f_equal; exact X|injection X as X; exact X].
Qed.

Lemma core_eq_ok : forall (keqb : K -> K -> bool) (veqb : option V -> option V -> bool) tca tcb f,
  (forall x y, keqb x y = true <-> x = y) -> (forall x y, veqb x y = true <-> x = y) ->
  inv cmp tca -> inv cmp tcb -> length (elements (root tca)) < f ->
  exists r : bool, core_eq keqb veqb f tca tcb = Some r /\ (r = true <-> kvs (elements (root tca)) = kvs (elements (root tcb))).
Proof.
  intros keqb veqb tca tcb f Hk Hv Ia Ib Hf. unfold core_eq.
  rewrite (inv_num _ _ Ia), (inv_num _ _ Ib).
  destruct (Z.eqb_spec (Z.of_nat (length (elements (root tca)))) (Z.of_nat (length (elements (root tcb))))) as [E|E]; cbn [negb].
  - eapply (eq_loop_ok keqb veqb Hk Hv _ _ tca tcb [] []); auto; try apply Ia; try apply Ib; cbn [it_n]; apply bound_id_ok.
  - exists false. split; auto. split; [discriminate|]. intro X. apply (f_equal (@length _)) in X. unfold kvs in X.
    rewrite !map_length in X. unfold entry in *. lia.
Qed.

(** ** adequacy of the specification *)
Lemma map_split : forall (key : K) (m : alist K V), sorted_map cmp m ->
  exists a mid b, m = a ++ mid ++ b /\ Forall (fun x => cmp (fst x) key < 0)%Z a /\
    Forall (fun x => 0 < cmp (fst x) key)%Z b /\ (mid = [] \/ exists k v, mid = [(k, v)] /\ cmp k key = 0%Z).
Proof.
  induction m as [|[k v] m IH]; intro S.
  - exists [], [], []. auto.
  - inversion S; subst. destruct (Z.lt_trichotomy (cmp k key) 0) as [L|[L|L]].
    + destruct (IH H1) as (a & mid & b & -> & A & B & C). exists ((k, v) :: a), mid, b. auto.
    + exists [], [(k, v)], m. repeat split; auto.
      * eapply Forall_impl; [|exact H2]. cbn. intros x Hx. apply (cmp_opp _ O). eapply (cmp_eq_lt _ O); [|exact Hx]. now apply cmp_sym0.
      * right. eauto.
    + exists [], [], ((k, v) :: m). repeat split; auto. constructor; auto.
      eapply Forall_impl; [|exact H2]. cbn. intros x Hx. apply (cmp_opp _ O). apply (cmp_opp _ O) in L. eapply (cmp_trans _ O); eauto.
Qed.
Lemma sorted_join : forall (key : K) a k (v : V) b, sorted_map cmp (a ++ b) ->
  Forall (fun x => cmp (fst x) key < 0)%Z a -> Forall (fun x => 0 < cmp (fst x) key)%Z b -> cmp k key = 0%Z ->
  sorted_map cmp (a ++ (k, v) :: b).
Proof.
  intros key a k v b S A B Hk. unfold sorted_map in *. apply SS_app_iff in S. destruct S as (S1 & S2 & S3).
  apply SS_app_iff. split; auto. split.
  - constructor; auto. eapply Forall_impl; [|exact B]. cbn. intros x Hx. eapply (cmp_eq_lt _ O); [exact Hk|]. now apply (cmp_opp _ O).
  - rewrite Forall_forall in *. intros x Hx. constructor; auto. cbn.
    pose proof (A x Hx). cbn in H. apply (cmp_opp _ O). apply (cmp_opp _ O) in H.
    destruct (Z.lt_trichotomy (cmp k (fst x)) 0) as [L|[L|L]]; auto; exfalso.
    + assert (cmp key (fst x) < 0)%Z by (eapply (cmp_eq_lt _ O); [apply cmp_sym0; eauto|exact L]). lia.
    + apply cmp_sym0 in L; auto. assert (cmp (fst x) key < 0)%Z by (now apply (cmp_opp _ O)).
      apply cmp_sym0 in L; auto. assert (cmp k key < 0)%Z by (eapply (cmp_eq_lt _ O); eauto). lia.
Qed.
Lemma sorted_unjoin : forall (a b : alist K V) x, sorted_map cmp (a ++ x :: b) -> sorted_map cmp (a ++ b).
Proof.
  intros a b x S. unfold sorted_map in *. apply SS_app_iff in S. destruct S as (S1 & S2 & S3).
  inversion S2; subst. apply SS_app_iff. repeat split; auto.
  eapply Forall_impl; [|exact S3]. intros y Hy. now inversion Hy.
Qed.
Lemma put_sorted : forall (m : alist K V) k v, sorted_map cmp m -> sorted_map cmp (put cmp k v m).
Proof.
  intros m k v S. destruct (map_split k m S) as (a & mid & b & -> & A & B & [->|(k' & v' & -> & E)]); cbn [app] in *.
  - rewrite put_miss by auto. eapply sorted_join; eauto. apply (cmp_refl _ O).
  - rewrite (put_hit _ _ _ _ A B _ _ E). eapply sorted_join; eauto. eapply sorted_unjoin; eauto.
Qed.
Lemma remove_sorted : forall (m : alist K V) k, sorted_map cmp m -> sorted_map cmp (remove cmp k m).
Proof.
  intros m k S. destruct (map_split k m S) as (a & mid & b & -> & A & B & [->|(k' & v' & -> & E)]); cbn [app] in *.
  - now rewrite remove_miss.
  - rewrite (remove_hit _ _ _ _ A B _ _ E). eapply sorted_unjoin; eauto.
Qed.
Lemma lookup_in : forall (m : alist K V) k v, sorted_map cmp m ->
  (lookup cmp k m = Some v <-> exists k', In (k', v) m /\ cmp k' k = 0%Z).
Proof.
  intros m k v S. destruct (map_split k m S) as (a & mid & b & -> & A & B & [->|(k' & v' & -> & E)]); cbn [app] in *.
  - rewrite lookup_miss by auto. split; [discriminate|]. intros (k' & I & E). exfalso. apply in_app_iff in I.
    rewrite Forall_forall in A, B. destruct I as [I|I]; [apply A in I|apply B in I]; cbn in I; lia.
  - rewrite (lookup_hit _ _ _ _ A _ _ E). split.
    + intro X. injection X as <-. exists k'. split; auto. apply in_app_iff. right. now left.
    + intros (k2 & I & E2). apply in_app_iff in I. rewrite Forall_forall in A, B. destruct I as [I|[I|I]].
      * apply A in I. cbn in I. lia.
      * congruence.
      * apply B in I. cbn in I. lia.
Qed.
Lemma cmp_eq_trans : forall a b c, cmp a b = 0%Z -> cmp b c = 0%Z -> cmp a c = 0%Z.
Proof.
  intros a b c H1 H2. destruct (Z.lt_trichotomy (cmp a c) 0) as [L|[L|L]]; auto; exfalso.
  - assert (cmp b c < 0)%Z by (eapply (cmp_eq_lt _ O); [apply cmp_sym0; eauto|exact L]). lia.
  - apply (cmp_opp _ O) in L. assert (cmp b a < 0)%Z by (eapply (cmp_eq_lt _ O); eauto).
    apply cmp_sym0 in H1; auto. lia.
Qed.
Lemma lookup_put : forall (m : alist K V) k v k', sorted_map cmp m ->
  lookup cmp k' (put cmp k v m) = if (cmp k k' =? 0)%Z then Some v else lookup cmp k' m.
Proof.
  intros m k v k' S. pose proof (put_sorted m k v S) as S'.
  assert (X : forall w, lookup cmp k' (put cmp k v m) = Some w <-> (if (cmp k k' =? 0)%Z then Some v else lookup cmp k' m) = Some w).
  { intro w. rewrite lookup_in by auto.
    destruct (map_split k m S) as (a & mid & b & -> & A & B & H).
    assert (P : exists k0, put cmp k v (a ++ mid ++ b) = a ++ (k0, v) :: b /\ cmp k0 k = 0%Z /\ (forall x, In x mid -> cmp (fst x) k = 0%Z)).
    { destruct H as [->|(k1 & v1 & -> & E)]; cbn [app].
      - exists k. rewrite put_miss by auto. repeat split; auto. apply (cmp_refl _ O). intros x [].
      - exists k1. rewrite (put_hit _ _ _ _ A B _ _ E). repeat split; auto. intros x [<-|[]]. exact E. }
    destruct P as (k0 & -> & E0 & Em).
    destruct (Z.eqb_spec (cmp k k') 0) as [E|N].
    - split.
      + intros (k2 & I & E2). apply in_app_iff in I. rewrite Forall_forall in A, B. destruct I as [I|[I|I]].
        * apply A in I. cbn in I. assert (cmp k2 k = 0)%Z by (eapply cmp_eq_trans; [eauto|apply cmp_sym0; eauto]). lia.
        * congruence.
        * apply B in I. cbn in I. assert (cmp k2 k = 0)%Z by (eapply cmp_eq_trans; [eauto|apply cmp_sym0; eauto]). lia.
      + intro X. injection X as <-. exists k0. split; [apply in_app_iff; right; now left|]. eapply cmp_eq_trans; eauto.
    - rewrite lookup_in by auto. split; intros (k2 & I & E2); exists k2; split; auto.
      + rewrite !in_app_iff in *. destruct I as [I|[I|I]]; auto. exfalso. injection I as -> ->.
        apply N. eapply cmp_eq_trans; [apply cmp_sym0; eauto|exact E2].
      + rewrite !in_app_iff in *. destruct I as [I|[I|I]]; auto; [|right; now right].
        exfalso. apply Em in I. cbn in I. apply N. eapply cmp_eq_trans; [apply cmp_sym0; eauto|exact E2]. }
  destruct (lookup cmp k' (put cmp k v m)) as [w|]; [symmetry; now apply X|].
  destruct (if (cmp k k' =? 0)%Z then Some v else lookup cmp k' m) as [w|]; auto. now apply X.
Qed.
Lemma lookup_remove : forall (m : alist K V) k k', sorted_map cmp m ->
  lookup cmp k' (remove cmp k m) = if (cmp k k' =? 0)%Z then None else lookup cmp k' m.
Proof.
  intros m k k' S. pose proof (remove_sorted m k S) as S'.
  assert (X : forall w, lookup cmp k' (remove cmp k m) = Some w <-> (if (cmp k k' =? 0)%Z then None else lookup cmp k' m) = Some w).
  { intro w. rewrite lookup_in by auto. unfold remove.
    assert (F : forall k2, In (k2, w) (filter (fun x => negb (same cmp k x)) m) <-> In (k2, w) m /\ cmp k2 k <> 0%Z).
    { intro k2. rewrite filter_In. unfold same. cbn. rewrite negb_true_iff, Z.eqb_neq. tauto. }
    destruct (Z.eqb_spec (cmp k k') 0) as [E|N].
    - split; [|discriminate]. intros (k2 & I & E2). apply F in I. exfalso. apply I. eapply cmp_eq_trans; [eauto|apply cmp_sym0; eauto].
    - rewrite lookup_in by auto. split; intros (k2 & I & E2); exists k2; split; auto.
      + now apply F in I.
      + apply F. split; auto. intro Z. apply N. eapply cmp_eq_trans; [apply cmp_sym0; eauto|exact E2]. }
  destruct (lookup cmp k' (remove cmp k m)) as [w|]; [symmetry; now apply X|].
  destruct (if (cmp k k' =? 0)%Z then None else lookup cmp k' m) as [w|]; auto. now apply X.
Qed.
End P.
