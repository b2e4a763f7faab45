From Coq Require Import List Bool ZArith Lia Sorting.Sorted Permutation.
From Verif Require Import Outcome TreeModel TreeSpec TreeApi TreeProofs.
Import ListNotations.

(** ** lists *)
Lemma SS_app_iff : forall {A} (R : A -> A -> Prop) a b,
  StronglySorted R (a ++ b) <->
  StronglySorted R a /\ StronglySorted R b /\ Forall (fun x => Forall (R x) b) a.
Proof.
  induction a as [|x a IH]; intros b; cbn.
  - split; [intro H; repeat split; auto; constructor | tauto].
  - split.
    + intro H. inversion H as [|? ? H1 H2]; subst. apply IH in H1. destruct H1 as (A1 & A2 & A3).
      apply Forall_app in H2. destruct H2. repeat split; auto; constructor; auto.
    + intros (H1 & H2 & H3). inversion H1; subst. inversion H3; subst. constructor.
      * apply IH; auto.
      * apply Forall_app; auto.
Qed.

Lemma hd_error_app : forall {A} (a b : list A) d, hd_error ((a ++ [d]) ++ b) = hd_error (a ++ [d]).
Proof. destruct a; auto. Qed.

Section P.
Context {K V : Type}.
Variable cmp : K -> K -> Z.
Hypothesis O : ordering cmp.
Implicit Types (t l r : tree K V) (p : path K V) (e : entry K V) (tc : core K V).

Definition ekey e : K := snd (fst e).
Definition elt e1 e2 : Prop := (cmp (ekey e1) (ekey e2) < 0)%Z.
Definition lo key e : Prop := (cmp (ekey e) key < 0)%Z.
Definition hi key e : Prop := (0 < cmp (ekey e) key)%Z.

Fixpoint vals (es : list (entry K V)) : alist K V :=
  match es with
  | [] => []
  | (_, k, Some v) :: r => (k, v) :: vals r
  | (_, _, None) :: r => vals r
  end.
Lemma vals_app : forall a b, vals (a ++ b) = vals a ++ vals b.
Proof. induction a as [|[[i k] [v|]] a IH]; intros; cbn; auto. now rewrite IH. Qed.
Definition full (es : list (entry K V)) := Forall (fun e => snd e <> None) es.
Lemma vals_length : forall a, full a -> length (vals a) = length a.
Proof.
  induction a as [|[[i k] [v|]] a IH]; intro H; cbn; auto; inversion H; subst.
  - f_equal. now apply IH.
  - cbn in *. congruence.
Qed.
Lemma vals_rev : forall a, full a -> vals (rev a) = rev (vals a).
Proof.
  induction a as [|[[i k] [v|]] a IH]; intro H; cbn; auto; inversion H; subst; cbn in *; [|congruence].
  rewrite vals_app, IH; auto.
Qed.
Lemma pair_list_vals : forall a, full a -> pair_list a = Ok (vals a).
Proof.
  induction a as [|[[i k] [v|]] a IH]; intro H; cbn; auto; inversion H; subst; cbn in *; [|congruence].
  now rewrite IH.
Qed.
Lemma pair_opt_hd : forall a, full a -> pair_opt (hd_error a) = Ok (hd_error (vals a)).
Proof.
  intros [|[[i k] [v|]] a] H; cbn; auto; inversion H; subst; cbn in *; congruence.
Qed.

Record inv tc : Prop := {
  inv_rb : rbroot (root tc);
  inv_sorted : StronglySorted elt (elements (root tc));
  inv_ids : NoDup (map entry_id (elements (root tc)));
  inv_fresh : Forall (fun e => entry_id e < fresh tc)%nat (elements (root tc));
  inv_num : num_entries tc = Z.of_nat (length (elements (root tc)));
}.

(** ** order facts *)
Lemma lo_trans : forall key e1 e2, elt e1 e2 -> lo key e2 -> lo key e1.
Proof. unfold elt, lo. intros. eapply (cmp_trans _ O); eauto. Qed.
Lemma hi_trans : forall key e1 e2, elt e1 e2 -> hi key e1 -> hi key e2.
Proof. unfold elt, hi. intros. apply (cmp_opp _ O). apply (cmp_opp _ O) in H0. eapply (cmp_trans _ O); eauto. Qed.
Lemma cmp_sym0 : forall a b, cmp a b = 0%Z -> cmp b a = 0%Z.
Proof.
  intros a b H. pose proof (cmp_opp _ O a b). pose proof (cmp_opp _ O b a). lia.
Qed.
Lemma lo_of_eq : forall key e1 e2, elt e1 e2 -> cmp (ekey e2) key = 0%Z -> lo key e1.
Proof.
  unfold elt, lo. intros key e1 e2 H H0. apply (cmp_opp _ O). apply (cmp_opp _ O) in H.
  pose proof (cmp_opp _ O key (ekey e1)). pose proof (cmp_opp _ O (ekey e1) key).
  apply cmp_sym0 in H0.
  destruct (Z.lt_trichotomy (cmp key (ekey e1)) 0) as [L|[L|L]]; [| |exact L].
  - assert (cmp (ekey e2) (ekey e1) < 0)%Z.
    { eapply (cmp_eq_lt _ O); [apply cmp_sym0; exact H0|exact L]. }
    pose proof (cmp_opp _ O (ekey e2) (ekey e1)).  pose proof (cmp_opp _ O (ekey e1) (ekey e2)). lia.
  - apply cmp_sym0 in H0. apply cmp_sym0 in L.
    assert (cmp (ekey e1) (ekey e2) < 0)%Z by (apply (cmp_opp _ O); lia).
    assert (cmp key (ekey e2) < 0)%Z by (eapply (cmp_eq_lt _ O); [apply cmp_sym0; exact L|exact H3]).
    apply cmp_sym0 in H0. lia.
Qed.
Lemma hi_of_eq : forall key e1 e2, elt e1 e2 -> cmp (ekey e1) key = 0%Z -> hi key e2.
Proof.
  unfold elt, hi. intros key e1 e2 H H0. apply (cmp_opp _ O).
  eapply (cmp_eq_lt _ O); [apply cmp_sym0; exact H0|exact H].
Qed.

Lemma sorted_around : forall key a e b, StronglySorted elt (a ++ e :: b) -> cmp (ekey e) key = 0%Z ->
  Forall (lo key) a /\ Forall (hi key) b.
Proof.
  intros key a e b H Hk. apply SS_app_iff in H. destruct H as (_ & H & H2).
  inversion H; subst. split.
  - eapply Forall_impl; [|exact H2]. intros x Hx. inversion Hx; subst. eapply lo_of_eq; eauto.
  - eapply Forall_impl; [|exact H4]. intros x Hx. eapply hi_of_eq; eauto.
Qed.

(** ** the descent *)
Lemma descend_spec : forall key t p,
  StronglySorted elt (elements (zip t p)) -> Forall (lo key) (pl p) -> Forall (hi key) (pr p) ->
  match descend cmp key t p with
  | Hit c l i k v r p' => zip (T c l i k v r) p' = zip t p /\ cmp k key = 0%Z
  | Miss p' => zip E p' = zip t p /\ Forall (lo key) (pl p') /\ Forall (hi key) (pr p')
  end.
Proof.
  induction t as [|c l IHl i k v r IHr]; intros p S L H; cbn [descend].
  - auto.
  - destruct (Z.eqb_spec (cmp k key) 0) as [E0|N0]; [auto|].
    rewrite elements_zip in S. cbn [elements] in S. rewrite <- app_assoc in S. cbn [app] in S.
    rewrite app_assoc in S.
    pose proof S as S'. apply SS_app_iff in S. destruct S as (S1 & S2 & S3).
    inversion S2 as [|? ? S4 S5]; subst.
    destruct (Z.ltb_spec (cmp k key) 0) as [L0|G0].
    + specialize (IHr (PR c l i k v p)). cbn [zip pl pr] in IHr. apply IHr; auto.
      * rewrite elements_zip. cbn [elements]. rewrite <- app_assoc. cbn [app]. rewrite app_assoc. exact S'.
      * rewrite app_assoc, Forall_app. split.
        -- eapply Forall_impl; [|exact S3]. intros x Hx. inversion Hx; subst. eapply lo_trans; eauto.
        -- constructor; auto.
    + specialize (IHl (PL c i k v r p)). cbn [zip pl pr] in IHl. apply IHl; auto.
      * rewrite elements_zip. cbn [elements]. rewrite <- app_assoc. cbn [app]. rewrite app_assoc. exact S'.
      * constructor; [unfold hi; cbn; lia|]. eapply Forall_impl; [|exact S5].
        intros x Hx. eapply hi_trans; [exact Hx|]. unfold hi; cbn; lia.
Qed.

(** ** spec operations on a split list *)
Lemma lo_below : forall key a, Forall (lo key) a -> Forall (fun x => cmp (fst x) key < 0)%Z (vals a).
Proof. induction a as [|[[i k] [v|]] a IH]; cbn; intro H; inversion H; subst; auto. Qed.
Lemma hi_above : forall key a, Forall (hi key) a -> Forall (fun x => 0 < cmp (fst x) key)%Z (vals a).
Proof. induction a as [|[[i k] [v|]] a IH]; cbn; intro H; inversion H; subst; auto. Qed.

Lemma filter_all : forall {A} (f : A -> bool) (P : A -> Prop) a,
  (forall x, P x -> f x = true) -> Forall P a -> filter f a = a.
Proof. induction a; intros I F; cbn; auto. inversion F; subst. rewrite I; auto. f_equal; auto. Qed.
Lemma filter_none : forall {A} (f : A -> bool) (P : A -> Prop) a,
  (forall x, P x -> f x = false) -> Forall P a -> filter f a = [].
Proof. induction a; intros I F; cbn; auto. inversion F; subst. rewrite I; auto. Qed.
Lemma find_none : forall {A} (f : A -> bool) (P : A -> Prop) a,
  (forall x, P x -> f x = false) -> Forall P a -> find f a = None.
Proof. induction a; intros I F; cbn; auto. inversion F; subst. rewrite I; auto. Qed.
Lemma find_app : forall {A} (f : A -> bool) a b,
  find f (a ++ b) = match find f a with Some x => Some x | None => find f b end.
Proof. induction a; intros; cbn; auto. destruct (f a); auto. Qed.

Section Split.
Variables (key : K) (a b : alist K V).
Hypothesis Ha : Forall (fun x => cmp (fst x) key < 0)%Z a.
Hypothesis Hb : Forall (fun x => 0 < cmp (fst x) key)%Z b.
Lemma same_a : forall x : K*V, (cmp (fst x) key < 0)%Z -> same cmp key x = false.
Proof. intros. unfold same. apply Z.eqb_neq. lia. Qed.
Lemma same_b : forall x : K*V, (0 < cmp (fst x) key)%Z -> same cmp key x = false.
Proof. intros. unfold same. apply Z.eqb_neq. lia. Qed.
Lemma fb_a : filter (below cmp key) a = a.
Proof. eapply filter_all; [|exact Ha]. intros. unfold below. now apply Z.ltb_lt. Qed.
Lemma fb_b : filter (below cmp key) b = [].
Proof. eapply filter_none; [|exact Hb]. intros. unfold below. apply Z.ltb_ge. cbn in *. lia. Qed.
Lemma fa_a : filter (above cmp key) a = [].
Proof. eapply filter_none; [|exact Ha]. intros. unfold above. apply Z.ltb_ge. cbn in *. lia. Qed.
Lemma fa_b : filter (above cmp key) b = b.
Proof. eapply filter_all; [|exact Hb]. intros. unfold above. now apply Z.ltb_lt. Qed.

Lemma find_miss : find (same cmp key) (a ++ b) = None.
Proof. rewrite find_app, (find_none _ _ _ same_a Ha). apply (find_none _ _ _ same_b Hb). Qed.
Lemma lookup_miss : lookup cmp key (a ++ b) = None.
Proof. unfold lookup. now rewrite find_miss. Qed.
Lemma put_miss : forall v, put cmp key v (a ++ b) = a ++ (key, v) :: b.
Proof. intros. unfold put. rewrite find_miss, !filter_app, fb_a, fb_b, fa_a, fa_b, app_nil_r. reflexivity. Qed.
Lemma remove_miss : remove cmp key (a ++ b) = a ++ b.
Proof.
  unfold remove. rewrite filter_app. f_equal.
  - eapply filter_all; [|exact Ha]. intros. now rewrite same_a.
  - eapply filter_all; [|exact Hb]. intros. now rewrite same_b.
Qed.
Lemma pred_miss : pred_of cmp key (a ++ b) = final a.
Proof. unfold pred_of. now rewrite filter_app, fb_a, fb_b, app_nil_r. Qed.
Lemma succ_miss : succ_of cmp key (a ++ b) = first b.
Proof. unfold succ_of. now rewrite filter_app, fa_a, fa_b. Qed.

Variables (k : K) (v : V).
Hypothesis Hk : cmp k key = 0%Z.
Lemma same_k : same cmp key (k, v) = true.
Proof. unfold same. cbn. now rewrite Hk. Qed.
Lemma find_hit : find (same cmp key) (a ++ (k, v) :: b) = Some (k, v).
Proof. rewrite find_app, (find_none _ _ _ same_a Ha). cbn. now rewrite same_k. Qed.
Lemma lookup_hit : lookup cmp key (a ++ (k, v) :: b) = Some v.
Proof. unfold lookup. now rewrite find_hit. Qed.
Lemma put_hit : forall w, put cmp key w (a ++ (k, v) :: b) = a ++ (k, w) :: b.
Proof.
  intros. unfold put. rewrite find_hit, !filter_app. cbn [filter]. unfold below at 2, above at 2. cbn [fst].
  rewrite Hk. cbn [Z.ltb Z.compare]. now rewrite fb_a, fb_b, fa_a, fa_b, app_nil_r.
Qed.
Lemma remove_hit : remove cmp key (a ++ (k, v) :: b) = a ++ b.
Proof.
  unfold remove. rewrite filter_app. cbn [filter]. rewrite same_k. cbn [negb]. f_equal.
  - eapply filter_all; [|exact Ha]. intros. now rewrite same_a.
  - eapply filter_all; [|exact Hb]. intros. now rewrite same_b.
Qed.
Lemma pred_hit : pred_of cmp key (a ++ (k, v) :: b) = final a.
Proof. unfold pred_of. rewrite filter_app. cbn [filter]. unfold below at 2. cbn [fst]. rewrite Hk. cbn [Z.ltb Z.compare].
  now rewrite fb_a, fb_b, app_nil_r. Qed.
Lemma succ_hit : succ_of cmp key (a ++ (k, v) :: b) = first b.
Proof. unfold succ_of. rewrite filter_app. cbn [filter]. unfold above at 2. cbn [fst]. rewrite Hk. cbn [Z.ltb Z.compare].
  now rewrite fa_a, fa_b. Qed.
End Split.

(** ** neighbours *)
Lemma climb_next_spec : forall p, climb_next p = hd_error (pr p).
Proof. induction p; cbn; auto. Qed.
Lemma climb_prev_spec : forall p, climb_prev p = hd_error (rev (pl p)).
Proof. induction p; cbn; auto. rewrite app_assoc, rev_app_distr. reflexivity. Qed.
Lemma next_node_spec : forall r p, next_node r p = hd_error (elements r ++ pr p).
Proof.
  intros [|c l i k v r] p; cbn [next_node elements app]; [apply climb_next_spec|].
  destruct (leftmost c l i k v r Top) as [[[[[yc yr] yi] yk] yv] q] eqn:E.
  apply leftmost_spec in E. destruct E as [E1 E2]. cbn in E1, E2.
  apply (f_equal elements) in E1. rewrite elements_zip, E2 in E1. cbn [elements app] in E1.
  rewrite <- E1. reflexivity.
Qed.
Lemma prev_node_spec : forall l p, prev_node l p = hd_error (rev (pl p ++ elements l)).
Proof.
  intros [|c l i k v r] p; cbn [prev_node elements]; [rewrite app_nil_r; apply climb_prev_spec|].
  destruct (rightmost c l i k v r Top) as [[[[[yc yr] yi] yk] yv] q] eqn:E.
  apply rightmost_spec in E. destruct E as [E1 E2]. cbn in E1, E2.
  apply (f_equal elements) in E1. rewrite elements_zip, E2 in E1. cbn [elements app] in E1.
  rewrite app_nil_r in E1. rewrite <- E1. rewrite !rev_app_distr. reflexivity.
Qed.

(** ** basic facts from inv *)
Lemma ids_perm : forall (l l' : list (entry K V)), Permutation l l' ->
  NoDup (map entry_id l) -> NoDup (map entry_id l').
Proof. intros l l' P N. eapply Permutation_NoDup; [|exact N]. now apply Permutation_map. Qed.

Lemma lo_hi_sorted : forall key a b, StronglySorted elt (a ++ b) -> Forall (lo key) a -> Forall (hi key) b ->
  forall e, ekey e = key -> StronglySorted elt (a ++ e :: b).
Proof.
  intros key a b S La Hb e Ek. apply SS_app_iff in S. destruct S as (S1 & S2 & S3).
  apply SS_app_iff. split; auto. split.
  - constructor; auto. eapply Forall_impl; [|exact Hb]. intros x Hx. unfold elt, hi in *. rewrite Ek.
    now apply (cmp_opp _ O).
  - rewrite Forall_forall in *. intros x Hx. constructor; auto. specialize (La x Hx). unfold lo, elt in *. now rewrite Ek.
Qed.

Lemma sorted_drop : forall a e b, StronglySorted elt (a ++ e :: b) -> StronglySorted elt (a ++ b).
Proof.
  intros a e b S. apply SS_app_iff in S. destruct S as (S1 & S2 & S3).
  inversion S2; subst. apply SS_app_iff. repeat split; auto.
  eapply Forall_impl; [|exact S3]. intros x Hx. now inversion Hx.
Qed.

Lemma core_create_spec : forall tc key, inv tc -> (num_entries tc < 2147483647)%Z ->
  exists tc' e a b,
    core_create cmp tc key = Ok (tc', e) /\ inv tc' /\ cmp (ekey e) key = 0%Z /\
    Forall (lo key) a /\ Forall (hi key) b /\ elements (root tc') = a ++ e :: b /\
    ((tc' = tc) \/ (elements (root tc) = a ++ b /\ snd e = None /\ ekey e = key)).
Proof.
  intros tc key I N. unfold core_create.
  pose proof (descend_spec key (root tc) Top) as D. cbn [zip pl pr] in D.
  specialize (D (inv_sorted _ I) (Forall_nil _) (Forall_nil _)).
  destruct (descend cmp key (root tc) Top) as [c l i k v r p|p].
  - destruct D as [Z Hk]. exists tc, (i, k, v), (pl p ++ elements l), (elements r ++ pr p).
    assert (E : elements (root tc) = (pl p ++ elements l) ++ (i, k, v) :: elements r ++ pr p).
    { rewrite <- Z, elements_zip. cbn. now rewrite <- !app_assoc. }
    pose proof (inv_sorted _ I) as S. rewrite E in S.
    destruct (sorted_around key _ _ _ S Hk). repeat split; auto; apply I.
  - destruct D as (Z & L & H).
    destruct (Z.eqb_spec (num_entries tc) 2147483647); [lia|].
    assert (Ep : elements (root tc) = pl p ++ pr p) by (rewrite <- Z, elements_zip; reflexivity).
    pose proof (inv_rb _ I) as R. rewrite <- Z in R. apply rb_unzip in R. destruct R as (n0 & R1 & R2 & _).
    destruct (balance_rb p E (fresh tc) key None E n0) as (t & Et & Rt); auto.
    rewrite Et. cbn [bind].
    apply balance_elements in Et. cbn [elements app] in Et.
    exists {| root := t; num_entries := num_entries tc + 1; fresh := S (fresh tc) |}.
    exists (fresh tc, key, None), (pl p), (pr p).
    split; [reflexivity|].
    assert (P : Permutation ((fresh tc, key, None) :: elements (root tc)) (elements t)).
    { rewrite Et, Ep. apply Permutation_middle. }
    split; [constructor; cbn [root num_entries fresh]|].
    + exact Rt.
    + rewrite Et. apply (lo_hi_sorted key); auto. rewrite <- Ep. apply I.
    + eapply ids_perm; [exact P|]. cbn. constructor; [|apply I].
      intro Hin. apply in_map_iff in Hin. destruct Hin as (x & Hx1 & Hx2).
      pose proof (inv_fresh _ I) as F. rewrite Forall_forall in F. specialize (F x Hx2). lia.
    + eapply Permutation_Forall; [exact P|]. constructor; [cbn; lia|].
      eapply Forall_impl; [|apply (inv_fresh _ I)]. cbn. intros; lia.
    + rewrite (inv_num _ I). pose proof (Permutation_length P) as HL. cbn [length] in HL. unfold entry in *. lia.
    + split; [apply (cmp_refl _ O)|]. repeat split; auto.
Qed.

Lemma core_get_spec : forall tc key, inv tc ->
  exists a b mid, elements (root tc) = a ++ mid ++ b /\ Forall (lo key) a /\ Forall (hi key) b /\
   core_near cmp tc key = (core_get cmp tc key, hd_error (rev a), hd_error b) /\
   ((mid = [] /\ core_get cmp tc key = None) \/
    (exists e, mid = [e] /\ cmp (ekey e) key = 0%Z /\ core_get cmp tc key = Some e)).
Proof.
  intros tc key I. unfold core_get, core_near.
  pose proof (descend_spec key (root tc) Top) as D. cbn [zip pl pr] in D.
  specialize (D (inv_sorted _ I) (Forall_nil _) (Forall_nil _)).
  destruct (descend cmp key (root tc) Top) as [c l i k v r p|p].
  - destruct D as [Z Hk]. exists (pl p ++ elements l), (elements r ++ pr p), [(i, k, v)].
    assert (E : elements (root tc) = (pl p ++ elements l) ++ (i, k, v) :: elements r ++ pr p).
    { rewrite <- Z, elements_zip. cbn. now rewrite <- !app_assoc. }
    pose proof (inv_sorted _ I) as S. rewrite E in S.
    destruct (sorted_around key _ _ _ S Hk).
    split; [exact E|]. repeat split; auto.
    + now rewrite prev_node_spec, next_node_spec.
    + right. exists (i, k, v). auto.
  - destruct D as (Z & L & H). exists (pl p), (pr p), [].
    split; [rewrite <- Z, elements_zip; reflexivity|]. repeat split; auto.
    destruct p as [|c i k v r up|c l i k v up]; cbn [pl pr].
    + reflexivity.
    + now rewrite climb_prev_spec.
    + rewrite climb_next_spec, app_assoc, rev_app_distr. reflexivity.
Qed.

Lemma del_inv : forall tc t a e b, inv tc -> elements (root tc) = a ++ e :: b ->
  rbroot t -> elements t = a ++ b -> inv (mkcore t (num_entries tc - 1) (fresh tc)).
Proof.
  intros tc t a e b I E R Et.
  assert (P : Permutation (elements (root tc)) (e :: elements t)).
  { rewrite E, Et. symmetry. apply Permutation_middle. }
  constructor; cbn [root num_entries fresh]; auto.
  - rewrite Et. eapply sorted_drop. rewrite <- E. apply I.
  - pose proof (ids_perm _ _ P (inv_ids _ I)) as N. cbn in N. now inversion N.
  - pose proof (Permutation_Forall P (inv_fresh _ I)) as N. now inversion N.
  - rewrite (inv_num _ I). pose proof (Permutation_length P) as HL. cbn [length] in HL. unfold entry in *. lia.
Qed.

Lemma core_delete_spec : forall tc key, inv tc ->
  exists tc' a b mid, core_delete cmp tc key = Ok (tc', hd_error mid) /\ inv tc' /\
   elements (root tc) = a ++ mid ++ b /\ elements (root tc') = a ++ b /\
   Forall (lo key) a /\ Forall (hi key) b /\
   (mid = [] \/ exists e, mid = [e] /\ cmp (ekey e) key = 0%Z).
Proof.
  intros tc key I. unfold core_delete.
  pose proof (descend_spec key (root tc) Top) as D. cbn [zip pl pr] in D.
  specialize (D (inv_sorted _ I) (Forall_nil _) (Forall_nil _)).
  destruct (descend cmp key (root tc) Top) as [c l i k v r p|p].
  - destruct D as [Z Hk].
    assert (E : elements (root tc) = (pl p ++ elements l) ++ (i, k, v) :: elements r ++ pr p).
    { rewrite <- Z, elements_zip. cbn. now rewrite <- !app_assoc. }
    pose proof (inv_sorted _ I) as S. rewrite E in S.
    destruct (sorted_around key _ _ _ S Hk).
    pose proof (inv_rb _ I) as R. rewrite <- Z in R.
    destruct (delete_node_ok _ _ _ _ _ _ _ R) as (t & E1 & E2 & E3). rewrite E1. cbn [bind].
    eexists _, (pl p ++ elements l), (elements r ++ pr p), [(i, k, v)]. split; [reflexivity|].
    split; [|split; [exact E|]]; cbn [root].
    + eapply del_inv; eauto. rewrite E3. now rewrite <- app_assoc.
    + split; [rewrite E3; now rewrite <- app_assoc|]. repeat split; auto. right. eexists; split; eauto.
  - destruct D as (Z & L & H). exists tc, (pl p), (pr p), [].
    assert (elements (root tc) = pl p ++ pr p) by (rewrite <- Z, elements_zip; reflexivity).
    repeat split; auto; apply I.
Qed.

Lemma core_bound_spec : forall tc min pop, inv tc ->
  exists tc', core_bound tc min pop =
     Ok (tc', if min then hd_error (elements (root tc)) else hd_error (rev (elements (root tc)))) /\
   inv tc' /\
   elements (root tc') = if pop then (if min then tl (elements (root tc)) else removelast (elements (root tc)))
                         else elements (root tc).
Proof.
  intros tc min pop I. unfold core_bound. destruct (root tc) as [|c l i k v r] eqn:Ert.
  - exists tc. rewrite Ert. destruct min, pop; auto.
  - destruct min.
    + destruct (leftmost c l i k v r Top) as [[[[[yc yr] yi] yk] yv] q] eqn:El.
      apply leftmost_spec in El. destruct El as [E1 E2]. cbn [zip pl] in E1, E2.
      assert (Ee : elements (T c l i k v r) = (yi, yk, yv) :: elements yr ++ pr q).
      { rewrite <- E1, elements_zip, E2. reflexivity. }
      rewrite Ee. cbn [hd_error tl].
      destruct pop.
      * pose proof (inv_rb _ I) as R. rewrite Ert, <- E1 in R.
        destruct (delete_node_ok _ _ _ _ _ _ _ R) as (t & F1 & F2 & F3). rewrite F1. cbn [bind].
        eexists; split; [reflexivity|]. rewrite E2 in F3. cbn [app elements] in F3. cbn [root]. split; [|exact F3].
        eapply (del_inv tc t [] (yi, yk, yv)); eauto. now rewrite Ert.
      * exists tc. split; [reflexivity|]. split; [exact I|]. rewrite Ert. exact Ee.
    + destruct (rightmost c l i k v r Top) as [[[[[yc yr] yi] yk] yv] q] eqn:El.
      apply rightmost_spec in El. destruct El as [E1 E2]. cbn [zip pr] in E1, E2.
      assert (Ee : elements (T c l i k v r) = (pl q ++ elements yr) ++ [(yi, yk, yv)]).
      { rewrite <- E1, elements_zip, E2. cbn [elements]. rewrite app_nil_r. now rewrite app_assoc. }
      rewrite Ee, rev_app_distr, removelast_last. cbn [rev app hd_error].
      destruct pop.
      * pose proof (inv_rb _ I) as R. rewrite Ert, <- E1 in R.
        destruct (delete_node_ok _ _ _ _ _ _ _ R) as (t & F1 & F2 & F3). rewrite F1. cbn [bind].
        eexists; split; [reflexivity|]. rewrite E2 in F3. cbn [app elements] in F3. rewrite app_nil_r in F3.
        cbn [root]. split; [|exact F3].
        eapply (del_inv tc t (pl q ++ elements yr) (yi, yk, yv) []); eauto. now rewrite Ert.
        now rewrite app_nil_r.
      * exists tc. split; [reflexivity|]. split; [exact I|]. rewrite Ert. exact Ee.
Qed.

(** ** storing a value *)
Definition upd (id : nat) (val : V) e : entry K V :=
  if Nat.eqb (entry_id e) id then (entry_id e, ekey e, Some val) else e.
Lemma upd_notin : forall id val a, ~ In id (map entry_id a) -> map (upd id val) a = a.
Proof.
  induction a as [|x a IH]; cbn; intro H; auto. rewrite IH by tauto. f_equal.
  unfold upd. destruct (Nat.eqb_spec (entry_id x) id); auto. tauto.
Qed.
Lemma NoDup_mid : forall (a b : list (entry K V)) e, NoDup (map entry_id (a ++ e :: b)) ->
  ~ In (entry_id e) (map entry_id a) /\ ~ In (entry_id e) (map entry_id b).
Proof.
  intros a b e H. rewrite map_app in H. cbn in H. apply NoDup_remove_2 in H. rewrite in_app_iff in H. tauto.
Qed.
Lemma NoDup_app_l : forall {A} (a b : list A), NoDup (a ++ b) -> NoDup a /\ NoDup b.
Proof.
  induction a; cbn; intros b H; [split; auto; constructor|]. inversion H; subst. apply IHa in H3.
  destruct H3; split; auto. constructor; auto. intro; apply H2. apply in_or_app; auto.
Qed.
Lemma set_elements : forall t id val, NoDup (map entry_id (elements t)) ->
  elements (set_node_value t id val) = map (upd id val) (elements t).
Proof.
  induction t as [|c l IHl i k v r IHr]; intros id val N; cbn [set_node_value elements]; auto.
  cbn [elements] in N. destruct (NoDup_mid _ _ _ N) as [N1 N2]. unfold entry_id at 1 in N1. cbn in N1, N2.
  rewrite map_app in N. apply NoDup_app_l in N. destruct N as [Nl Nr]. cbn in Nr. inversion Nr; subst.
  rewrite map_app. cbn [map]. unfold upd at 2. cbn [entry_id fst ekey snd].
  destruct (Nat.eqb_spec i id).
  - subst. cbn [elements]. rewrite !upd_notin; auto.
  - cbn [elements]. rewrite IHl, IHr; auto.
Qed.
Lemma set_rb : forall t id val, (forall n, rb t n -> rb (set_node_value t id val) n)
   /\ blackp (set_node_value t id val) = blackp t.
Proof.
  induction t as [|c l IHl i k v r IHr]; intros id val; cbn [set_node_value]; [split; auto|].
  destruct (Nat.eqb i id); [destruct c; cbn; auto|].
  destruct (IHl id val) as [L1 L2], (IHr id val) as [R1 R2].
  destruct c; cbn; split; auto; intros n H.
  - rewrite L2, R2. intuition.
  - destruct H as (m & ? & ? & ?). exists m. auto.
Qed.
Lemma upd_ids : forall id val a, map (@entry_id K V) (map (upd id val) a) = map entry_id a.
Proof. intros. rewrite map_map. apply map_ext. intro. unfold upd. destruct (Nat.eqb _ _); reflexivity. Qed.
Lemma upd_keys : forall id val a, map ekey (map (upd id val) a) = map ekey a.
Proof. intros. rewrite map_map. apply map_ext. intro. unfold upd. destruct (Nat.eqb _ _); reflexivity. Qed.
Lemma sorted_keys : forall a a', map ekey a = map ekey a' -> StronglySorted elt a -> StronglySorted elt a'.
Proof.
  induction a as [|x a IH]; intros [|y a'] E S; try discriminate; [constructor|].
  cbn in E. injection E as E1 E2. inversion S; subst. constructor; auto.
  clear - E1 E2 H2. revert a' E2. induction a as [|z a IH]; intros [|w a'] E; try discriminate; [constructor|].
  cbn in E. injection E as E3 E4. inversion H2; subst. constructor; auto. unfold elt in *. congruence.
Qed.

Lemma set_inv : forall tc id val, inv tc ->
  inv (mkcore (set_node_value (root tc) id val) (num_entries tc) (fresh tc)).
Proof.
  intros tc id val I. destruct I as [R S N F M]. constructor; cbn [root num_entries fresh].
  - destruct R as [B [n R]]. destruct (set_rb (root tc) id val). split; [congruence|eauto].
  - rewrite set_elements; auto. eapply sorted_keys; [|exact S]. now rewrite upd_keys.
  - rewrite set_elements; auto. now rewrite upd_ids.
  - rewrite set_elements; auto. apply Forall_forall. intros x Hx. apply in_map_iff in Hx. destruct Hx as (y & <- & Hy).
    rewrite Forall_forall in F. specialize (F y Hy). unfold upd. destruct (Nat.eqb _ _); auto.
  - rewrite set_elements; auto. now rewrite map_length.
Qed.
End P.
