From Coq Require Import List Bool ZArith Lia.
From Verif Require Import Outcome SkewModel SkewSpec.
Import ListNotations.
Local Open Scope Z_scope.
Ltac Zify.zify_post_hook ::= idtac.

Section P.
Context {A : Type}.
Implicit Types (t : stree A) (sl : skew A).

Lemma half_odd v : half (2 * v + 1) = v.
Proof. unfold half. replace (2 * v + 1) with (1 + v * 2) by lia. rewrite Z.div_add by lia. reflexivity. Qed.

Lemma elems_length t : forall w, complete w t -> Z.of_nat (length (elems t)) = w.
Proof.
  induction t as [x|x t1 IH1 t2 IH2]; intros w H; cbn [complete elems length] in *.
  - subst; reflexivity.
  - destruct H as (v & -> & H1 & H2). rewrite app_length. pose proof (IH1 _ H1). pose proof (IH2 _ H2). lia.
Qed.
Lemma elems_pos t : (0 < length (elems t))%nat.
Proof. destruct t; cbn; lia. Qed.
Lemma complete_pos t w : complete w t -> 0 < w.
Proof. intros H. pose proof (elems_length _ _ H). pose proof (elems_pos t). lia. Qed.

Lemma contents_cons w t sl : contents ((w, t) :: sl) = elems t ++ contents sl.
Proof. reflexivity. Qed.
Lemma contents_app sl sl' : contents (sl ++ sl') = contents sl ++ contents sl'.
Proof. unfold contents. rewrite map_app, concat_app. reflexivity. Qed.

Lemma increasing_tail a l : increasing (a :: l) -> increasing l.
Proof. destruct l as [|b l]; cbn; tauto. Qed.
Lemma increasing_canonical sl : wf sl -> increasing (map fst sl) -> canonical sl.
Proof.
  intros W I. split; auto. destruct (map fst sl) as [|a [|b r]]; auto. destruct I as [? ?]. split; [lia|auto].
Qed.
Lemma canonical_tail p sl : canonical (p :: sl) -> wf sl /\ increasing (map fst sl).
Proof.
  intros [W I]. inversion W; subst. split; auto. destruct p as [w t]. cbn [map fst] in I.
  destruct (map fst sl) as [|b r] eqn:E; [exact Logic.I|]. tauto.
Qed.
Lemma canonical_nil : canonical (@nil (Z * stree A)).
Proof. split; [constructor|exact Logic.I]. Qed.

Lemma skew_cons_holds x sl l : holds sl l -> holds (skew_cons x sl) (x :: l).
Proof.
  intros [[W I] C]. unfold skew_cons.
  destruct sl as [|[w1 t1] [|[w2 t2] ts]].
  - cbn in C. subst l. split; [|reflexivity]. split; [repeat constructor|exact Logic.I].
  - split.
    + split; [constructor; [reflexivity|auto]|]. cbn. inversion W; subst. apply complete_pos in H1. cbn in H1. split; [lia|exact Logic.I].
    + rewrite contents_cons. cbn [elems]. rewrite C. reflexivity.
  - pose proof (Forall_inv W) as W1. pose proof (Forall_inv_tail W) as W'.
    pose proof (Forall_inv W') as W2. pose proof (Forall_inv_tail W') as W3. cbn [fst snd] in *.
    cbn [map fst] in I. destruct I as [I1 I2].
    destruct (w1 =? w2) eqn:E.
    + apply Z.eqb_eq in E. subst w2. split.
      * split.
        { constructor; [|exact W3]. cbn [fst snd complete]. exists w1. repeat split; auto. lia. }
        cbn [map fst]. destruct (map fst ts) as [|b r] eqn:E; [exact Logic.I|].
        destruct I2 as [I3 I4]. split; [|exact I4].
        destruct ts as [|[w3 t3] ts]; [discriminate|]. cbn [map fst] in E. injection E as -> _.
        pose proof (Forall_inv W3) as W4. cbn [fst snd] in W4.
        destruct t1, t3; cbn [complete] in *.
        -- lia.
        -- destruct W4 as (v & -> & Wa & _). pose proof (complete_pos _ _ Wa). lia.
        -- lia.
        -- (* both odd 2^j-1: handled through a separate lemma *)
           destruct W1 as (v & -> & Wa & Wb). destruct W4 as (v' & -> & Wc & Wd).
           assert (forall t t' a b, complete a t -> complete b t' -> a < b -> 2 * a + 1 <= b) as G.
           { clear. induction t as [x|x t1 IH1 t2 IH2]; intros t' a b Ha Hb L; destruct t' as [y|y u1 u2]; cbn [complete] in *.
             - lia.
             - destruct Hb as (v & -> & Hv & _). apply complete_pos in Hv. lia.
             - destruct Ha as (v & -> & Hv & _). apply complete_pos in Hv. lia.
             - destruct Ha as (v & -> & Hv & _). destruct Hb as (v' & -> & Hv' & _).
               pose proof (IH1 _ _ _ Hv Hv' ltac:(lia)). lia. }
           pose proof (G _ _ _ _ Wa Wc ltac:(lia)). lia.
      * cbn [contents map snd concat elems]. unfold contents in C. cbn [map snd concat] in C. subst l.
        cbn. rewrite <- app_assoc. reflexivity.
    + apply Z.eqb_neq in E. split.
      * split; [constructor; [reflexivity|auto]|]. cbn [map fst]. apply complete_pos in W1.
        split; [lia|]. split; [lia|exact I2].
      * rewrite contents_cons. cbn [elems]. rewrite C. reflexivity.
Qed.

Lemma skew_nil_inv sl : contents sl = [] -> sl = [].
Proof.
  destruct sl as [|[w t] sl]; auto. rewrite contents_cons. destruct t; discriminate.
Qed.

Lemma skew_car_ok sl x l : contents sl = x :: l -> skew_car sl = Ok x.
Proof.
  destruct sl as [|[w [y|y t1 t2]] sl]; [discriminate| |]; rewrite contents_cons; cbn; intros H; injection H; intros; subst; reflexivity.
Qed.
Lemma skew_cdr_ok sl x l : holds sl (x :: l) -> exists sl', skew_cdr sl = Ok sl' /\ holds sl' l.
Proof.
  intros [Cn C]. destruct sl as [|[w [y|y t1 t2]] sl]; [discriminate| |]; rewrite contents_cons in C.
  - cbn in C. injection C as -> C. exists sl. split; [reflexivity|]. destruct (canonical_tail _ _ Cn) as [W I].
    split; [apply increasing_canonical; auto|exact C].
  - cbn [elems app] in C. injection C as -> C. eexists. split; [reflexivity|].
    destruct (canonical_tail _ _ Cn) as [W I]. destruct Cn as [W0 I0].
    pose proof (Forall_inv W0) as H. cbn [fst snd complete] in H. destruct H as (v & -> & H1 & H2).
    pose proof (complete_pos _ _ H1). rewrite half_odd.
    split.
    + split; [repeat constructor; auto|]. cbn [map fst]. split; [lia|].
      cbn [map fst] in I0. destruct (map fst sl) as [|b r] eqn:E; [exact Logic.I|].
      cbn [increasing]. split; [lia|exact I].
    + rewrite !contents_cons, app_assoc. exact C.
Qed.
Lemma skew_cons_car_cdr sl x l : holds sl (x :: l) -> exists sl', skew_cdr sl = Ok sl' /\ holds sl' l /\ skew_cons x sl' = sl.
Proof.
  intros H. destruct (skew_cdr_ok _ _ _ H) as (sl' & E & H'). exists sl'. split; [exact E|]. split; [exact H'|].
  destruct H as [Cn C]. destruct sl as [|[w [y|y t1 t2]] sl]; [discriminate| |]; rewrite contents_cons in C; cbn [elems app] in C; injection C as -> C; cbn [skew_cdr] in E; injection E as <-.
  - destruct (canonical_tail _ _ Cn) as [W I]. pose proof (Forall_inv (proj1 Cn)) as Hw. cbn in Hw. subst w.
    unfold skew_cons. destruct sl as [|[w1 u1] [|[w2 u2] ts]]; auto. cbn [map fst increasing] in I.
    destruct (w1 =? w2) eqn:E; auto. apply Z.eqb_eq in E. lia.
  - unfold skew_cons. rewrite Z.eqb_refl. pose proof (Forall_inv (proj1 Cn)) as Hw. cbn [fst snd complete] in Hw.
    destruct Hw as (v & -> & _). rewrite half_odd. f_equal. f_equal. lia.
Qed.

Lemma holds_unique l : forall sl sl', holds sl l -> holds sl' l -> sl = sl'.
Proof.
  induction l as [|x l IH]; intros sl sl' H H'.
  - rewrite (skew_nil_inv sl), (skew_nil_inv sl'); auto; [apply H'|apply H].
  - destruct (skew_cons_car_cdr _ _ _ H) as (a & _ & Ha & <-).
    destruct (skew_cons_car_cdr _ _ _ H') as (b & _ & Hb & <-). f_equal. apply IH; auto.
Qed.

(** ref *)
Lemma at_index_app_l (l l' : list A) i : i < Z.of_nat (length l) -> at_index (l ++ l') i = at_index l i.
Proof. intros. unfold at_index. destruct (i <? 0) eqn:E; auto. apply Z.ltb_ge in E. apply nth_error_app1. lia. Qed.
Lemma at_index_app_r (l l' : list A) i : Z.of_nat (length l) <= i -> at_index (l ++ l') i = at_index l' (i - Z.of_nat (length l)).
Proof.
  intros. unfold at_index. destruct (i <? 0) eqn:E; [apply Z.ltb_lt in E; lia|].
  destruct (i - _ <? 0) eqn:E'; [apply Z.ltb_lt in E'; lia|]. rewrite nth_error_app2 by lia. f_equal. lia.
Qed.
Lemma at_index_cons x (l : list A) i : i <> 0 -> at_index (x :: l) i = at_index l (i - 1).
Proof.
  intros. destruct (Z_lt_ge_dec i 1).
  - unfold at_index. destruct (i <? 0) eqn:E, (i - 1 <? 0) eqn:E'; auto; apply Z.ltb_lt in E || apply Z.ltb_ge in E; apply Z.ltb_lt in E' || apply Z.ltb_ge in E'; lia.
  - change (x :: l) with ([x] ++ l). rewrite at_index_app_r by (cbn; lia). reflexivity.
Qed.
Lemma tree_ref_ok t : forall w i, complete w t -> i < w -> tree_ref w i t = Ok (at_index (elems t) i).
Proof.
  induction t as [x|x t1 IH1 t2 IH2]; intros w i H L; cbn [complete tree_ref elems] in *.
  - subst w. destruct (i =? 0) eqn:E.
    + apply Z.eqb_eq in E; subst. reflexivity.
    + apply Z.eqb_neq in E. cbn. unfold at_index. destruct (i <? 0) eqn:E2; auto. apply Z.ltb_ge in E2. lia.
  - destruct H as (v & -> & H1 & H2). destruct (i =? 0) eqn:E.
    + apply Z.eqb_eq in E; subst. reflexivity.
    + apply Z.eqb_neq in E. pose proof (complete_pos _ _ H1) as P1. destruct (2 * v + 1 =? 1) eqn:E1; [apply Z.eqb_eq in E1; lia|].
      rewrite half_odd. pose proof (elems_length _ _ H1) as L1. rewrite at_index_cons by exact E.
      destruct (i <=? v) eqn:E2.
      * apply Z.leb_le in E2. rewrite (IH1 _ _ H1) by lia. rewrite at_index_app_l by lia. reflexivity.
      * apply Z.leb_gt in E2. rewrite (IH2 _ _ H2) by lia. rewrite at_index_app_r by lia. rewrite L1. reflexivity.
Qed.
Lemma skew_ref_ok sl : wf sl -> forall i, skew_ref sl i = Ok (at_index (contents sl) i).
Proof.
  induction sl as [|[w t] sl IH]; intros W i; cbn [skew_ref].
  - unfold at_index. cbn. destruct (i <? 0); auto. destruct (Z.to_nat i); reflexivity.
  - pose proof (Forall_inv W) as H. cbn [fst snd] in H. pose proof (elems_length _ _ H) as L. rewrite contents_cons.
    destruct (i <? w) eqn:E.
    + apply Z.ltb_lt in E. rewrite (tree_ref_ok _ _ _ H E). rewrite at_index_app_l by lia. reflexivity.
    + apply Z.ltb_ge in E. rewrite IH by exact (Forall_inv_tail W). rewrite at_index_app_r by lia. rewrite L. reflexivity.
Qed.

(** set *)
Lemma replaced_app_l (l l' : list A) i v : (i < length l)%nat -> replaced (l ++ l') i v = replaced l i v ++ l'.
Proof.
  intros. unfold replaced. rewrite firstn_app, skipn_app. replace (i - length l)%nat with O by lia. replace (S i - length l)%nat with O by lia.
  cbn [firstn]. change (skipn 0 l') with l'. rewrite app_nil_r, <- app_assoc. reflexivity.
Qed.
Lemma replaced_app_r (l l' : list A) i v : (length l <= i)%nat -> replaced (l ++ l') i v = l ++ replaced l' (i - length l) v.
Proof.
  intros. unfold replaced. rewrite firstn_app, skipn_app, firstn_all2 by lia. rewrite skipn_all2 by lia.
  rewrite <- app_assoc. replace (S i - length l)%nat with (S (i - length l)) by lia. reflexivity.
Qed.
Lemma tree_set_ok v t : forall w i, complete w t -> 0 <= i < w ->
  exists t', tree_set v w i t = Ok t' /\ complete w t' /\ elems t' = replaced (elems t) (Z.to_nat i) v.
Proof.
  induction t as [x|x t1 IH1 t2 IH2]; intros w i H L; cbn [complete tree_set elems] in *.
  - subst w. assert (i = 0) by lia. subst. cbn. eexists. split; [reflexivity|]. split; reflexivity.
  - destruct H as (u & -> & H1 & H2). destruct (i =? 0) eqn:E.
    + apply Z.eqb_eq in E; subst. eexists. split; [reflexivity|]. split; [exists u; auto|reflexivity].
    + apply Z.eqb_neq in E. pose proof (complete_pos _ _ H1) as P1. destruct (2 * u + 1 =? 1) eqn:E1; [apply Z.eqb_eq in E1; lia|].
      rewrite half_odd. pose proof (elems_length _ _ H1) as L1.
      assert (forall l, replaced (x :: l) (Z.to_nat i) v = x :: replaced l (Z.to_nat (i - 1)) v) as R.
      { intros l. replace (Z.to_nat i) with (S (Z.to_nat (i - 1))) by lia. reflexivity. }
      rewrite R. destruct (i <=? u) eqn:E2.
      * apply Z.leb_le in E2. destruct (IH1 _ (i - 1) H1 ltac:(lia)) as (t' & -> & C & Q). cbn [bind].
        eexists. split; [reflexivity|]. split; [exists u; auto|]. cbn [elems]. rewrite Q. rewrite replaced_app_l by lia. reflexivity.
      * apply Z.leb_gt in E2. destruct (IH2 _ (i - 1 - u) H2 ltac:(lia)) as (t' & -> & C & Q). cbn [bind].
        eexists. split; [reflexivity|]. split; [exists u; auto|]. cbn [elems]. rewrite Q. rewrite replaced_app_r by lia.
        do 4 f_equal. lia.
Qed.
Lemma tree_set_neg v t : forall w i, complete w t -> i < 0 -> tree_set v w i t = Err.
Proof.
  induction t as [x|x t1 IH1 t2 IH2]; intros w i H L; cbn [complete tree_set] in *; (destruct (i =? 0) eqn:E; [apply Z.eqb_eq in E; lia|]).
  - subst; reflexivity.
  - destruct H as (u & -> & H1 & H2). pose proof (complete_pos _ _ H1). destruct (2 * u + 1 =? 1) eqn:E1; auto.
    rewrite half_odd. destruct (i <=? u) eqn:E2; [|apply Z.leb_gt in E2; lia].
    rewrite (IH1 _ _ H1) by lia. reflexivity.
Qed.
Lemma skew_set_ok v sl : wf sl -> forall i, 0 <= i < Z.of_nat (length (contents sl)) ->
  exists sl', skew_set v sl i = Ok sl' /\ wf sl' /\ map fst sl' = map fst sl /\ contents sl' = replaced (contents sl) (Z.to_nat i) v.
Proof.
  induction sl as [|[w t] sl IH]; intros W i L; [cbn in L; lia|].
  pose proof (Forall_inv W) as H. pose proof (Forall_inv_tail W) as W'. cbn [fst snd] in H. pose proof (elems_length _ _ H) as Le.
  rewrite contents_cons in *. rewrite app_length in L. cbn [skew_set]. destruct (i <? w) eqn:E.
  - apply Z.ltb_lt in E. destruct (tree_set_ok v _ _ i H ltac:(lia)) as (t' & -> & C & Q). cbn [bind].
    eexists. split; [reflexivity|]. split; [constructor; auto|]. split; [reflexivity|]. rewrite contents_cons, Q, replaced_app_l by lia. reflexivity.
  - apply Z.ltb_ge in E. destruct (IH W' (i - w) ltac:(lia)) as (sl' & -> & W2 & M & Q). cbn [bind].
    eexists. split; [reflexivity|]. split; [constructor; auto|]. split; [cbn [map fst]; rewrite M; reflexivity|].
    rewrite contents_cons, Q, replaced_app_r by lia. do 2 f_equal. lia.
Qed.
Lemma skew_set_err v sl : wf sl -> forall i, i < 0 \/ Z.of_nat (length (contents sl)) <= i -> skew_set v sl i = Err.
Proof.
  induction sl as [|[w t] sl IH]; intros W i L; [reflexivity|].
  pose proof (Forall_inv W) as H. pose proof (Forall_inv_tail W) as W'. cbn [fst snd] in H. pose proof (elems_length _ _ H) as Le.
  rewrite contents_cons in *. rewrite app_length in L. pose proof (complete_pos _ _ H). cbn [skew_set]. destruct (i <? w) eqn:E.
  - apply Z.ltb_lt in E. rewrite (tree_set_neg _ _ _ _ H) by lia. reflexivity.
  - apply Z.ltb_ge in E. rewrite IH by (auto; lia). reflexivity.
Qed.

(** fold, length *)
Lemma tree_fold_ok {B} (f : A -> B -> B) t : forall s, tree_fold f t s = fold_left (fun s x => f x s) (elems t) s.
Proof. induction t as [x|x t1 IH1 t2 IH2]; intros s; cbn [tree_fold elems fold_left]; auto. rewrite fold_left_app, IH1, IH2. reflexivity. Qed.
Lemma skew_fold_ok {B} (f : A -> B -> B) sl : forall s, skew_fold sl f s = fold_left (fun s x => f x s) (contents sl) s.
Proof.
  unfold skew_fold. induction sl as [|[w t] sl IH]; intros s; [reflexivity|]. rewrite contents_cons, fold_left_app. cbn [fold_left snd].
  rewrite IH, tree_fold_ok. reflexivity.
Qed.
Lemma skew_to_list_ok sl : skew_to_list sl = contents sl.
Proof.
  unfold skew_to_list. rewrite skew_fold_ok.
  assert (forall (l : list A) s, fold_left (fun s x => x :: s) l s = rev l ++ s) as G.
  { induction l as [|x l IH]; intros s; cbn; auto. rewrite IH, <- app_assoc. reflexivity. }
  rewrite G, app_nil_r, rev_involutive. reflexivity.
Qed.
Lemma skew_length_ok sl : wf sl -> skew_length sl = Z.of_nat (length (contents sl)).
Proof.
  unfold skew_length. intros W. cut (forall s, fold_left (fun s p => fst p + s) sl s = s + Z.of_nat (length (contents sl))); [intros G; rewrite G; lia|].
  induction sl as [|[w t] sl IH]; intros s; [cbn; lia|]. cbn [fold_left fst]. rewrite IH by exact (Forall_inv_tail W).
  rewrite contents_cons, app_length. pose proof (elems_length _ _ (Forall_inv W)). cbn [fst snd] in *. lia.
Qed.
Lemma length_le_loop_ok sl : wf sl -> forall k s, length_le_loop sl k s = (s + Z.of_nat (length (contents sl)) <=? k).
Proof.
  induction sl as [|[w t] sl IH]; intros W k s; cbn [length_le_loop].
  - cbn. destruct (k <? s) eqn:E; symmetry; [apply Z.leb_gt|apply Z.leb_le]; [apply Z.ltb_lt in E|apply Z.ltb_ge in E]; lia.
  - rewrite contents_cons, app_length. pose proof (elems_length _ _ (Forall_inv W)). cbn [fst snd] in *. destruct (k <? s) eqn:E.
    + apply Z.ltb_lt in E. symmetry. apply Z.leb_gt. lia.
    + rewrite IH by exact (Forall_inv_tail W). f_equal. lia.
Qed.

(** map *)
End P.
Lemma tree_map_elems {A B} (f : A -> B) t : elems (tree_map f t) = map f (elems t).
Proof. induction t as [x|x t1 IH1 t2 IH2]; cbn [tree_map elems map]; auto. rewrite map_app, IH1, IH2. reflexivity. Qed.
Lemma tree_map_complete {A B} (f : A -> B) t : forall w, complete w t -> complete w (tree_map f t).
Proof. induction t as [x|x t1 IH1 t2 IH2]; intros w; cbn [tree_map complete]; auto. intros (v & -> & ? & ?). exists v; auto. Qed.
Lemma skew_map_holds {A B} (f : A -> B) sl l : holds sl l -> holds (skew_map sl f) (map f l).
Proof.
  intros [[W I] C]. split; [split|].
  - unfold wf, skew_map in *. rewrite Forall_map. cbn [fst snd]. eapply Forall_impl; [|exact W]. intros [w t]. apply tree_map_complete.
  - unfold skew_map. rewrite map_map. cbn [fst]. exact I.
  - subst l. unfold contents, skew_map. rewrite map_map, concat_map, map_map. f_equal. apply map_ext. intros [w t]. apply tree_map_elems.
Qed.
