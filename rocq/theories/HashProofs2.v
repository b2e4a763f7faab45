From Coq Require Import List Bool ZArith Lia Permutation.
From Verif Require Import Outcome HashModel HashSpec HashApi HashProofs.
Import ListNotations.
Local Open Scope Z_scope.
Ltac Zify.zify_post_hook ::= idtac.

Lemma Permutation_filter : forall {A} (f : A -> bool) l l', Permutation l l' -> Permutation (filter f l) (filter f l').
Proof.
  induction 1; cbn; auto.
  - destruct (f x); auto.
  - destruct (f x), (f y); auto. apply perm_swap.
  - etransitivity; eauto.
Qed.

Section P.
Context {K V : Type}.
Variable hashfn : K -> Z.
Variable cmpfn : K -> K -> bool.
Hypothesis KO : key_ok hashfn cmpfn.
Notation hentry := (hentry K V).
Notation htable := (htable K V).
Notation hinv := (hinv hashfn cmpfn).
Implicit Types (e : hentry) (t : htable) (c : list hentry) (b : list (list hentry)).

(** ** iteration *)
Lemma first_chain_spec : forall b i,
  match first_chain b i with
  | Some (j, e) => exists p c q, b = p ++ (e :: c) :: q /\ concat p = [] /\ (j = i + length p)%nat
  | None => concat b = []
  end.
Proof.
  induction b as [|[|e c] b IH]; intros i; cbn [first_chain].
  - reflexivity.
  - specialize (IH (S i)). destruct (first_chain b (S i)) as [[j x]|].
    + destruct IH as (p & c & q & -> & Hp & ->). exists ([] :: p), c, q. cbn [app concat length]. repeat split; auto. lia.
    + exact IH.
  - exists [], c, b. cbn [app concat length]. repeat split; auto.
Qed.

Lemma deref_chain_none : forall id c, ~ In id (map eid c) -> deref_chain id c = None.
Proof.
  induction c as [|e c IH]; cbn [deref_chain map In]; intro H; auto.
  destruct (Nat.eqb_spec (eid e) id); [tauto|]. apply IH. tauto.
Qed.
Lemma deref_chain_mid : forall c0 e c', ~ In (eid e) (map eid c0) -> deref_chain (eid e) (c0 ++ e :: c') = Some (e, hd_error c').
Proof.
  induction c0 as [|x c0 IH]; intros e c' H; cbn [deref_chain app map In] in *.
  - now rewrite Nat.eqb_refl.
  - destruct (Nat.eqb_spec (eid x) (eid e)); [tauto|]. apply IH. tauto.
Qed.
Lemma deref_mid : forall pre c0 e c' post, NoDup (map eid (concat (pre ++ (c0 ++ e :: c') :: post))) ->
  deref (eid e) (pre ++ (c0 ++ e :: c') :: post) = Some (e, hd_error c').
Proof.
  intros pre c0 e c' post N.
  assert (N1 : ~ In (eid e) (map eid (concat pre ++ c0))).
  { rewrite concat_mid in N.
    replace (concat pre ++ (c0 ++ e :: c') ++ concat post) with ((concat pre ++ c0) ++ e :: (c' ++ concat post)) in N
      by (rewrite <- !app_assoc; reflexivity).
    rewrite (map_app eid (concat pre ++ c0)) in N. cbn [map] in N. apply NoDup_remove_2 in N. rewrite in_app_iff in N. tauto. }
  clear N. rewrite map_app, in_app_iff in N1.
  induction pre as [|c pre IH]; cbn [app deref concat] in *.
  - rewrite deref_chain_mid by tauto. reflexivity.
  - rewrite map_app, in_app_iff in N1. rewrite deref_chain_none by tauto. apply IH. tauto.
Qed.

(** the iterator stands before [rest] *)
Definition at_rest t (it : hiter) (rest : list hentry) : Prop :=
  match rest with
  | [] => hi_next it = None
  | e :: _ => hi_next it = Some (eid e) /\
      exists pre c0 c1 post, buckets t = pre ++ (c0 ++ e :: c1) :: post /\ length pre = hi_bucket it /\ rest = e :: c1 ++ concat post
  end.

Lemma iter_init_ok : forall t, at_rest t (hash_iter_init t) (concat (buckets t)).
Proof.
  intros t. unfold hash_iter_init. pose proof (first_chain_spec (buckets t) 0) as F.
  destruct (first_chain (buckets t) 0) as [[j e]|].
  - destruct F as (p & c & q & E & Hp & ->). rewrite E, concat_mid, Hp. cbn [app at_rest hi_next hi_bucket].
    split; [reflexivity|]. exists p, [], c, q. rewrite E. auto.
  - rewrite F. reflexivity.
Qed.

Lemma iter_next_ok : forall t it e rest, hinv t -> at_rest t it (e :: rest) ->
  exists it', hash_iter_next t it = Ok (it', Some e) /\ at_rest t it' rest.
Proof.
  intros t it e rest I [H1 (pre & c0 & c1 & post & E & L & Hr)]. injection Hr as ->.
  unfold hash_iter_next. rewrite H1. pose proof (hi_ids _ _ _ I) as N. rewrite E in N.
  rewrite E, (deref_mid _ _ _ _ _ N). cbn [of_opt bind fst snd]. destruct c1 as [|x c1]; cbn [hd_error].
  - assert (Sk : skipn (S (hi_bucket it)) (pre ++ (c0 ++ [e]) :: post) = post).
    { rewrite <- L, skipn_app, skipn_all2 by lia. replace (S (length pre) - length pre)%nat with 1%nat by lia. reflexivity. }
    rewrite Sk. pose proof (first_chain_spec post (S (hi_bucket it))) as F.
    destruct (first_chain post (S (hi_bucket it))) as [[j x]|].
    + destruct F as (p & c & q & Ep & Hp & ->). eexists; split; [reflexivity|].
      rewrite Ep, concat_mid, Hp. cbn [app at_rest hi_next hi_bucket]. split; [reflexivity|].
      exists (pre ++ (c0 ++ [e]) :: p), [], c, q. rewrite E, Ep. split; [now rewrite <- app_assoc|]. split; [|reflexivity].
      rewrite app_length. cbn [length]. lia.
    + eexists; split; [reflexivity|]. rewrite F. reflexivity.
  - eexists; split; [reflexivity|]. cbn [app at_rest hi_next hi_bucket]. split; [reflexivity|].
    exists pre, (c0 ++ [e]), c1, post. rewrite E. split; [now rewrite <- app_assoc|]. auto.
Qed.

Lemma at_rest_rm : forall t t' it id rest, at_rest t it rest -> buckets t' = map (rm id) (buckets t) ->
  ~ In id (map eid rest) -> at_rest t' it rest.
Proof.
  intros t t' it id [|e rest] A E N; [exact A|]. destruct A as [H1 (pre & c0 & c1 & post & Eb & L & Hr)].
  split; [exact H1|]. injection Hr as ->. cbn [map In] in N. rewrite map_app, in_app_iff in N.
  exists (map (rm id) pre), (rm id c0), c1, post. split; [|split; [now rewrite map_length|reflexivity]].
  rewrite E, Eb, map_app. cbn [map]. unfold rm at 2. rewrite filter_app. cbn [filter].
  destruct (Nat.eqb_spec (eid e) id); [tauto|]. cbn [negb]. fold (rm id c0) (rm id c1).
  rewrite (rm_notin id c1), (rm_bucket_notin id post) by tauto. reflexivity.
Qed.

Lemma delete_present : forall t e (a c : list hentry), hinv t -> concat (buckets t) = a ++ e :: c ->
  exists t', core_search hashfn cmpfn t (ekey e) DDelete = Ok (t', Some e) /\ hinv t' /\ buckets t' = map (rm (eid e)) (buckets t).
Proof.
  intros t e a c I E. destruct (delete_ok hashfn cmpfn KO t (ekey e) I) as [[O _]|(t' & e1 & a1 & c1 & H1 & I1 & E1 & Hk & Eb & _)].
  - exfalso. rewrite E in O. unfold others in O. rewrite Forall_app in O. destruct O as [_ O]. inversion O; subst.
    rewrite (ko_refl _ _ KO) in H1. discriminate.
  - assert (e1 = e).
    { pose proof (kdist_mid hashfn cmpfn KO a1 e1 c1 (ekey e)) as O. rewrite <- E1 in O. specialize (O (hi_dist _ _ _ I) Hk).
      assert (Hin : In e (a1 ++ e1 :: c1)) by (rewrite <- E1, E; apply in_or_app; right; now left).
      apply in_app_iff in Hin. destruct Hin as [Hin|[Hin|Hin]]; auto; exfalso; unfold others in O; rewrite Forall_forall in O;
        specialize (O e ltac:(apply in_or_app; tauto)); rewrite (ko_refl _ _ KO) in O; discriminate. }
    subst e1. eauto.
Qed.

Lemma sweep_ok : forall kill fuel t it dn rest, hinv t -> at_rest t it rest -> concat (buckets t) = dn ++ rest ->
  (length rest < fuel)%nat ->
  exists t', hash_sweep hashfn cmpfn fuel kill t it = Ok (t', rest) /\ hinv t' /\
    concat (buckets t') = dn ++ filter (fun e => negb (kill (ekey e))) rest.
Proof.
  intros kill. induction fuel as [|fuel IH]; intros t it dn rest I A E L; [lia|]. cbn [hash_sweep].
  destruct rest as [|e rest].
  - cbn [at_rest] in A. unfold hash_iter_next. rewrite A. cbn [bind fst snd]. exists t. auto.
  - destruct (iter_next_ok t it e rest I A) as (it' & H1 & A1). rewrite H1. cbn [bind fst snd]. cbn [filter length] in *.
    destruct (kill (ekey e)) eqn:Hk; cbn [negb].
    + destruct (delete_present t e dn rest I E) as (t' & H2 & I2 & Eb). rewrite H2. cbn [bind fst snd].
      pose proof (hi_ids _ _ _ I) as Nd.
      assert (E2 : concat (buckets t') = dn ++ rest).
      { rewrite Eb. unfold rm. rewrite concat_map_filter. fold (rm (eid e) (concat (buckets t))). rewrite E in *. apply rm_mid; auto. }
      assert (N : ~ In (eid e) (map eid rest)).
      { rewrite E, map_app in Nd. cbn [map] in Nd. apply NoDup_remove_2 in Nd. rewrite in_app_iff in Nd. tauto. }
      destruct (IH t' it' dn rest I2 (at_rest_rm _ _ _ _ _ A1 Eb N) E2 ltac:(lia)) as (t2 & H3 & I3 & E3).
      rewrite H3. cbn [bind fst snd]. exists t2. auto.
    + cbn [bind]. destruct (IH t it' (dn ++ [e]) rest I A1 ltac:(rewrite <- app_assoc; exact E) ltac:(lia)) as (t2 & H3 & I3 & E3).
      rewrite H3. cbn [bind fst snd]. exists t2. split; auto. split; auto. rewrite E3, <- app_assoc. reflexivity.
Qed.

(** ** the specification respects permutations of a map with distinct keys *)
Notation flookup := (flookup cmpfn (V:=V)).
Notation fput := (fput cmpfn (V:=V)).
Notation fremove := (fremove cmpfn (V:=V)).
Notation distinct := (distinct cmpfn (V:=V)).

Lemma distinct_perm : forall m m', Permutation m m' -> distinct m -> distinct m'.
Proof.
  induction 1; cbn [HashSpec.distinct]; auto.
  - intros [H1 H2]. split; auto. eapply Permutation_Forall; eauto.
  - intros [H1 [H2 H3]]. inversion H1; subst. repeat split; auto. constructor; auto. now rewrite (ko_sym _ _ KO).
Qed.
Lemma flookup_perm : forall k m m', Permutation m m' -> distinct m -> flookup k m = flookup k m'.
Proof.
  intros k. unfold HashSpec.flookup. induction 1; intro D; cbn [find] in *; auto.
  - destruct (cmpfn k (fst x)); auto. apply IHPermutation. apply D.
  - destruct (cmpfn k (fst x)) eqn:E1, (cmpfn k (fst y)) eqn:E2; auto.
    destruct D as [D _]. inversion D; subst.
    assert (cmpfn (fst y) (fst x) = true) by (eapply (ko_trans _ _ KO); [rewrite (ko_sym _ _ KO); exact E2|exact E1]). congruence.
  - rewrite IHPermutation1 by auto. apply IHPermutation2. eapply distinct_perm; eauto.
Qed.
Lemma fput_perm : forall k v m m', Permutation m m' -> distinct m -> Permutation (fput k v m) (fput k v m').
Proof.
  intros k v m m' P D. unfold HashSpec.fput. rewrite <- (flookup_perm k m m' P D).
  destruct (flookup k m); [now apply Permutation_map|now constructor].
Qed.
Lemma fremove_perm : forall k m m', Permutation m m' -> Permutation (fremove k m) (fremove k m').
Proof. intros. now apply Permutation_filter. Qed.

(** ** abstraction *)
Lemma hvals_others : forall key c, others cmpfn key c -> Forall (fun x => cmpfn key (fst x) = false) (hvals c).
Proof. induction 1; cbn [hvals]; auto. destruct (evalue x); auto. Qed.
Lemma habs_distinct : forall c, kdist cmpfn c -> distinct (hvals c).
Proof.
  induction c as [|e c IH]; cbn [kdist hvals HashSpec.distinct]; auto. intros [H1 H2].
  destruct (evalue e); auto. cbn [HashSpec.distinct fst]. split; auto. now apply hvals_others.
Qed.
Lemma find_others : forall key (m : fmap K V), Forall (fun x => cmpfn key (fst x) = false) m -> find (fun x => cmpfn key (fst x)) m = None.
Proof. induction 1; cbn; auto. now rewrite H. Qed.
Lemma flookup_none : forall key c, others cmpfn key c -> flookup key (hvals c) = None.
Proof. intros. unfold HashSpec.flookup. rewrite find_others; auto. now apply hvals_others. Qed.
Lemma find_app : forall {A} (f : A -> bool) l l', find f (l ++ l') = match find f l with Some x => Some x | None => find f l' end.
Proof. induction l; intros; cbn; auto. destruct (f a); auto. Qed.
Lemma flookup_hit : forall key (a : list hentry) e (c : list hentry) v, others cmpfn key a -> cmpfn key (ekey e) = true -> evalue e = Some v ->
  flookup key (hvals (a ++ e :: c)) = Some v.
Proof.
  intros key a e c v O Hk Hv. unfold HashSpec.flookup. rewrite hvals_app. cbn [hvals]. rewrite Hv, find_app, find_others by now apply hvals_others.
  cbn [find fst]. now rewrite Hk.
Qed.
Lemma map_others : forall key v (m : fmap K V), Forall (fun x => cmpfn key (fst x) = false) m ->
  map (fun x => if cmpfn key (fst x) then (fst x, v) else x) m = m.
Proof. induction 1; cbn; auto. rewrite H. now f_equal. Qed.
Lemma filter_others : forall key (m : fmap K V), Forall (fun x => cmpfn key (fst x) = false) m ->
  filter (fun x => negb (cmpfn key (fst x))) m = m.
Proof. induction 1; cbn; auto. rewrite H. cbn. now f_equal. Qed.
Lemma hvals_filter : forall (f : K -> bool) c, hvals (filter (fun e => f (ekey e)) c) = filter (fun x => f (fst x)) (hvals c).
Proof.
  induction c as [|e c IH]; cbn [filter hvals]; auto.
  destruct (f (ekey e)) eqn:E; cbn [hvals]; destruct (evalue e); cbn [filter fst]; rewrite ?E, IH; auto.
Qed.
Lemma hfull_perm : forall c c', Permutation c c' -> hfull c -> hfull c'.
Proof. intros c c' P H. eapply Permutation_Forall; eauto. Qed.

(** ** one step *)
Definition good t := hinv t /\ hfull (concat (buckets t)).
Definition okp t (p : list hentry -> Prop) := good t.
Lemma good_count : forall t, good t -> num_entries t = Z.of_nat (length (habs t)).
Proof. intros t [I F]. rewrite (hi_num _ _ _ I). unfold habs. now rewrite hvals_len. Qed.

Lemma store_mid : forall t (a : list hentry) e (c : list hentry) v, good t -> concat (buckets t) = a ++ e :: c ->
  good (set_entry_value t (eid e) v) /\ habs (set_entry_value t (eid e) v) = hvals a ++ (ekey e, v) :: hvals c.
Proof.
  intros t a e c v [I F] E. destruct (set_value_inv hashfn cmpfn t (eid e) v I) as [I1 E1].
  rewrite E, hupd_mid in E1 by (rewrite <- E; apply I). split; [split; auto|].
  - rewrite E1. rewrite E in F. unfold hfull in *. rewrite Forall_app in *. destruct F as [F1 F2]. inversion F2; subst.
    split; auto. constructor; auto. cbn. discriminate.
  - unfold habs. rewrite E1, hvals_app. reflexivity.
Qed.

Lemma set_ok : forall t key v (nc no : bool), good t -> num_entries t < INT_MAX ->
  exists t', hash_table_set hashfn cmpfn t key v nc no = Ok (t', flookup key (habs t)) /\ good t' /\
    Permutation (habs t')
      (match flookup key (habs t) with
       | Some _ => if no then habs t else fput key v (habs t)
       | None => if nc then habs t else fput key v (habs t)
       end).
Proof.
  intros t key v nc no [I F] N. unfold hash_table_set.
  destruct (get_ok hashfn cmpfn KO t key (if nc then DGet else DCreate) I) as [(e & a & c & E & Hk & H1)|[O H1]].
  { destruct nc; discriminate. } { auto. }
  - rewrite H1. cbn [bind fst snd].
    assert (Ho : others cmpfn key (a ++ c)) by (eapply (kdist_mid hashfn cmpfn KO); [rewrite <- E; apply I|exact Hk]).
    unfold others in Ho. rewrite Forall_app in Ho. destruct Ho as [Ha Hc].
    assert (Hv : exists w, evalue e = Some w).
    { unfold hfull in F. rewrite E, Forall_app in F. destruct F as [_ F]. inversion F; subst. destruct (evalue e); eauto; congruence. }
    destruct Hv as (w & Hv). rewrite Hv, orb_false_r.
    assert (Fl : flookup key (habs t) = Some w) by (unfold habs; rewrite E; apply flookup_hit; auto).
    rewrite Fl. destruct no; cbn [negb].
    + exists t. split; auto. split; [split; auto|]. reflexivity.
    + destruct (store_mid t a e c v (conj I F) E) as [G Ab]. eexists; split; [reflexivity|]. split; [exact G|].
      rewrite Ab. unfold HashSpec.fput. rewrite Fl. unfold habs. rewrite E, hvals_app. cbn [hvals]. rewrite Hv, map_app. cbn [map fst].
      rewrite Hk, !map_others by now apply hvals_others. reflexivity.
  - assert (Fl : flookup key (habs t) = None) by (unfold habs; now apply flookup_none). rewrite Fl.
    destruct nc.
    + rewrite H1. cbn [bind fst snd]. exists t. split; auto. split; [split; auto|reflexivity].
    + destruct H1 as (t1 & H1 & I1 & N1 & P1). rewrite H1. cbn [bind fst snd evalue]. rewrite orb_true_r. eexists; split; [reflexivity|].
      destruct (set_value_inv hashfn cmpfn t1 (hfresh t) v I1) as [I2 E2]. cbn [eid].
      assert (P2 : Permutation (concat (buckets (set_entry_value t1 (hfresh t) v))) (mkentry (hfresh t) key (Some v) (hashfn key) :: concat (buckets t))).
      { rewrite E2. rewrite (Permutation_map (hupd (hfresh t) v) P1). cbn [map]. unfold hupd at 1. cbn [eid ekey ehash]. rewrite Nat.eqb_refl.
        rewrite hupd_notin; [reflexivity|]. intro Hin. apply in_map_iff in Hin. destruct Hin as (x & Hx & Hin).
        pose proof (hi_fresh _ _ _ I) as Fr. rewrite Forall_forall in Fr. specialize (Fr x Hin). lia. }
      split; [split; auto|].
      * eapply hfull_perm; [symmetry; exact P2|]. constructor; [discriminate|exact F].
      * unfold habs at 1. rewrite (hvals_perm _ _ P2). cbn [hvals evalue ekey]. unfold HashSpec.fput. rewrite Fl. reflexivity.
Qed.

Lemma ref_ok : forall t key, good t -> hash_table_ref hashfn cmpfn t key = Ok (flookup key (habs t)).
Proof.
  intros t key [I F]. unfold hash_table_ref.
  destruct (get_ok hashfn cmpfn KO t key DGet I) as [(e & a & c & E & Hk & H1)|[O H1]]; try discriminate.
  - rewrite H1. cbn [bind fst snd].
    assert (Ho : others cmpfn key (a ++ c)) by (eapply (kdist_mid hashfn cmpfn KO); [rewrite <- E; apply I|exact Hk]).
    unfold others in Ho. rewrite Forall_app in Ho. destruct Ho as [Ha Hc].
    unfold hfull in F. rewrite E, Forall_app in F. destruct F as [_ F]. inversion F; subst. destruct (evalue e) eqn:Hv; [|congruence].
    unfold habs. rewrite E, (flookup_hit key a e c v); auto.
  - rewrite H1. cbn [bind snd]. unfold habs. now rewrite flookup_none.
Qed.

Lemma del_ok : forall t key, good t -> exists t', hash_table_delete hashfn cmpfn t key = Ok (t', flookup key (habs t)) /\ good t' /\
  habs t' = fremove key (habs t).
Proof.
  intros t key [I F]. unfold hash_table_delete.
  destruct (delete_ok hashfn cmpfn KO t key I) as [[O H1]|(t' & e & a & c & H1 & I1 & E & Hk & Eb & _)]; rewrite H1; cbn [bind fst snd].
  - exists t. unfold habs. rewrite flookup_none by auto. split; auto. split; [split; auto|]. unfold HashSpec.fremove.
    rewrite filter_others; auto. now apply hvals_others.
  - assert (Ho : others cmpfn key (a ++ c)) by (eapply (kdist_mid hashfn cmpfn KO); [rewrite <- E; apply I|exact Hk]).
    unfold others in Ho. rewrite Forall_app in Ho. destruct Ho as [Ha Hc].
    assert (Ec : concat (buckets t') = a ++ c).
    { rewrite Eb. unfold rm. rewrite concat_map_filter. fold (rm (eid e) (concat (buckets t))). rewrite E. apply rm_mid. rewrite <- E. apply I. }
    unfold hfull in F. rewrite E, Forall_app in F. destruct F as [F1 F2]. inversion F2; subst. destruct (evalue e) eqn:Hv; [|congruence].
    exists t'. split; [|split; [split; auto|]].
    + unfold habs. rewrite E, (flookup_hit key a e c v); auto.
    + rewrite Ec. apply Forall_app; auto.
    + unfold habs. rewrite Ec, E, !hvals_app. cbn [hvals]. rewrite Hv. unfold HashSpec.fremove. rewrite filter_app. cbn [filter fst]. rewrite Hk. cbn [negb].
      rewrite !filter_others by now apply hvals_others. reflexivity.
Qed.

Lemma sweep_step : forall kill t, good t -> exists t', 
  (do r <- hash_sweep hashfn cmpfn (S (Z.to_nat (num_entries t))) kill t (hash_iter_init t);
   do l <- entry_pairs (snd r); Ok (fst r, HList l)) = Ok (t', HList (habs t)) /\ good t' /\
   habs t' = filter (fun x => negb (kill (fst x))) (habs t).
Proof.
  intros kill t [I F]. destruct (sweep_ok kill (S (Z.to_nat (num_entries t))) t (hash_iter_init t) [] (concat (buckets t)) I (iter_init_ok t) eq_refl) as (t' & H1 & I1 & E1).
  { rewrite (hi_num _ _ _ I), Nat2Z.id. lia. }
  exists t'. rewrite H1. cbn [bind fst snd]. rewrite entry_pairs_ok by auto. cbn [bind]. split; [reflexivity|].
  cbn [app] in E1. split; [split; auto|].
  - rewrite E1. now apply Forall_filter.
  - unfold habs. rewrite E1. apply (hvals_filter (fun k => negb (kill k))).
Qed.

Lemma clear_ok : forall t, good t -> good (hash_core_clear t) /\ habs (hash_core_clear t) = [].
Proof.
  intros t [I F]. unfold hash_core_clear.
  assert (C : concat (map (fun _ : list hentry => @nil hentry) (buckets t)) = []) by (clear; induction (buckets t); cbn [map concat app]; auto).
  unfold good, habs; cbn [buckets]. rewrite C. split; [|reflexivity]. split; [|constructor].
  constructor; cbn [num_log2 num_buckets buckets num_entries hfresh]; rewrite ?C; try apply I; try constructor; auto.
  - rewrite map_length. apply I.
  - intros i c e Hi He. rewrite nth_error_map in Hi. destruct (nth_error (buckets t) i); [|discriminate]. injection Hi as <-. destruct He.
Qed.

Lemma copy_good : forall t, good t -> good (hash_core_copy t) /\ habs (hash_core_copy t) = habs t.
Proof.
  intros t [I F]. destruct (copy_ok hashfn cmpfn t I) as (I1 & S1 & _ & _). split; [split; auto|].
  - apply Forall_forall. intros e He. destruct (strip_in _ _ e S1 He) as (e' & H1 & _ & H2 & _).
    unfold hfull in F. rewrite Forall_forall in F. rewrite <- H2. auto.
  - unfold habs. now apply strip_vals.
Qed.

Lemma step_ok : forall o t, good t -> num_entries t < INT_MAX ->
  exists t' a, hash_step hashfn cmpfn o t = Ok (t', a) /\ good t' /\
    Permutation (habs t') (fst (hspec_step cmpfn o (habs t))) /\ ans_same a (snd (hspec_step cmpfn o (habs t))).
Proof.
  intros o t G N. destruct o; cbn [hash_step hspec_step fst snd].
  - destruct (set_ok t k v false false G N) as (t' & H & G' & P). rewrite H. cbn [bind fst snd]. eexists _, _; split; [reflexivity|]. split; auto.
    split; [|reflexivity]. rewrite P. destruct (flookup k (habs t)); reflexivity.
  - destruct (set_ok t k v true false G N) as (t' & H & G' & P). rewrite H. cbn [bind fst snd]. eexists _, _; split; [reflexivity|]. split; auto.
    split; [|reflexivity]. exact P.
  - destruct (set_ok t k v false true G N) as (t' & H & G' & P). rewrite H. cbn [bind fst snd]. eexists _, _; split; [reflexivity|]. split; auto.
    split; [|reflexivity]. exact P.
  - rewrite ref_ok by auto. cbn [bind]. eexists _, _; split; [reflexivity|]. split; auto. split; reflexivity.
  - destruct (del_ok t k G) as (t' & H & G' & P). rewrite H. cbn [bind fst snd]. eexists _, _; split; [reflexivity|]. split; auto.
    split; [|reflexivity]. now rewrite P.
  - eexists _, _; split; [reflexivity|]. split; auto. split; [reflexivity|]. cbn [ans_same]. now rewrite good_count.
  - destruct (sweep_step (fun _ => false) t G) as (t' & H & G' & P). rewrite H. eexists _, _; split; [reflexivity|]. split; auto.
    split; [|cbn; reflexivity]. rewrite P. cbn [negb]. rewrite filter_id; [reflexivity|]. apply Forall_forall; auto.
  - destruct (clear_ok t G) as [G' E]. eexists _, _; split; [reflexivity|]. split; auto. rewrite E. split; reflexivity.
  - destruct (copy_good t G) as [G' E]. eexists _, _; split; [reflexivity|]. split; auto. rewrite E. split; reflexivity.
  - destruct (sweep_step kill t G) as (t' & H & G' & P). rewrite H. eexists _, _; split; [reflexivity|]. split; auto.
    split; [|cbn; reflexivity]. rewrite P. reflexivity.
Qed.

Lemma habs_dist : forall t, good t -> distinct (habs t).
Proof. intros t [I _]. apply habs_distinct, I. Qed.

Lemma spec_perm : forall o (m m' : fmap K V), Permutation m m' -> distinct m ->
  Permutation (fst (hspec_step cmpfn o m)) (fst (hspec_step cmpfn o m')) /\
  ans_same (snd (hspec_step cmpfn o m)) (snd (hspec_step cmpfn o m')).
Proof.
  intros o m m' P D. destruct o; cbn [hspec_step fst snd ans_same]; rewrite <- ?(flookup_perm k m m' P D);
    try (split; [|reflexivity]); auto using fput_perm, fremove_perm.
  - destruct (flookup k m); auto using fput_perm.
  - destruct (flookup k m); auto using fput_perm.
  - split; auto. now rewrite (Permutation_length P).
  - split; auto. now apply Permutation_filter.
Qed.
Lemma ans_same_trans : forall (a b c : hans K V), ans_same a b -> ans_same b c -> ans_same a c.
Proof. intros [] [] []; cbn; intros; try congruence. etransitivity; eauto. Qed.
Lemma ans_same_refl : forall (a : hans K V), ans_same a a.
Proof. intros []; cbn; auto. Qed.

Lemma spec_grows : forall o (m : fmap K V), (length (fst (hspec_step cmpfn o m)) <= S (length m))%nat.
Proof.
  intros o m.
  assert (Fp : forall k v, (length (fput k v m) <= S (length m))%nat).
  { intros. unfold HashSpec.fput. destruct (flookup k m); [rewrite map_length|cbn]; lia. }
  assert (Fl : forall f : K * V -> bool, (length (filter f m) <= length m)%nat) by (intro f; clear; induction m as [|x l IH]; cbn; auto; destruct (f x); cbn; lia).
  destruct o; cbn [hspec_step fst]; auto; try lia.
  - destruct (flookup k m); auto.
  - destruct (flookup k m); auto.
  - unfold HashSpec.fremove. specialize (Fl (fun x => negb (cmpfn k (fst x)))). lia.
  - cbn [length]. lia.
Qed.

Theorem run_ok : forall ops t m, good t -> Permutation (habs t) m -> num_entries t + Z.of_nat (length ops) <= INT_MAX ->
  exists t' l, hash_run hashfn cmpfn ops t = Ok (t', l) /\ good t' /\
    Permutation (habs t') (fst (hspec_run cmpfn ops m)) /\ Forall2 ans_same l (snd (hspec_run cmpfn ops m)).
Proof.
  induction ops as [|o ops IH]; intros t m G P N; cbn [hash_run hspec_run].
  - exists t, []. cbn. auto.
  - cbn [length] in N. destruct (step_ok o t G) as (t1 & a & H1 & G1 & P1 & A1); [lia|]. rewrite H1. cbn [bind fst snd].
    destruct (spec_perm o (habs t) m P (habs_dist t G)) as [P2 A2].
    destruct (hspec_step cmpfn o m) as [m1 b] eqn:Em. cbn [fst snd] in *.
    destruct (IH t1 m1 G1) as (t2 & l & H2 & G2 & P3 & A3).
    { etransitivity; eauto. }
    { rewrite (good_count _ G1), (Permutation_length P1). pose proof (spec_grows o (habs t)). rewrite (good_count _ G) in N. lia. }
    rewrite H2. cbn [bind fst snd]. destruct (hspec_run cmpfn ops m1) as [m2 l2] eqn:Er. cbn [fst snd] in *.
    exists t2, (a :: l). repeat split; auto; try apply G2. constructor; auto. eapply ans_same_trans; eauto.
Qed.

(** ** creation *)
Lemma round2up_loop_ok : forall fuel k val, 0 <= k <= 30 -> 0 <= val <= 2 ^ 30 -> 30 - k < Z.of_nat fuel ->
  exists j, round2up_loop fuel (2 ^ k) val = Ok (2 ^ j) /\ k <= j <= 30.
Proof.
  induction fuel as [|fuel IH]; intros k val Hk Hv Hf; [lia|]. cbn [round2up_loop].
  destruct (Z.ltb_spec (2 ^ k) val) as [L|L].
  - assert (k < 30) by (apply (Z.pow_lt_mono_r_iff 2); lia).
    assert (E : (2 ^ k * 2) mod 2 ^ 32 = 2 ^ (k + 1)).
    { rewrite Z.pow_add_r by lia. change (2^1) with 2. apply Z.mod_small. split; [apply Z.mul_nonneg_nonneg; [apply Z.pow_nonneg|]; lia|].
      assert (2 ^ k < 2 ^ 30) by (apply Z.pow_lt_mono_r; lia). change (2^30) with 1073741824 in *. change (2^32) with 4294967296. lia. }
    rewrite E. unfold assert. assert (1 < 2 ^ (k + 1)) by (apply Z.pow_gt_1; lia).
    destruct (Z.ltb_spec 1 (2 ^ (k+1))); [|lia]. destruct (IH (k + 1) val) as (j & Hj1 & Hj2); try lia. exists j. rewrite Hj1. split; auto. lia.
  - exists k. split; auto. lia.
Qed.
Lemma init_ok : forall n, 0 <= n <= 2 ^ 30 -> exists t : htable, hash_core_init n = Ok t /\ good t /\ habs t = [] /\ num_entries t = 0.
Proof.
  intros n Hn. unfold hash_core_init.
  assert (X : exists j, (if n =? 0 then Ok DEFAULT_NUM_BUCKETS else round2up n) = Ok (2 ^ j) /\ 0 <= j <= 30).
  { destruct (Z.eqb_spec n 0); [exists 2; split; [reflexivity|lia]|]. unfold round2up. change 1 with (2 ^ 0).
    destruct (round2up_loop_ok 40 0 n) as (j & H1 & H2); try lia. eauto. }
  destruct X as (j & -> & Hj). cbn [bind]. eexists; split; [reflexivity|].
  unfold good, habs. cbn [buckets num_entries]. rewrite concat_repeat_nil. repeat split; cbn [num_log2 num_buckets buckets num_entries hfresh]; rewrite ?concat_repeat_nil; try constructor; auto.
  - apply Z.log2_nonneg.
  - rewrite Z.log2_pow2; lia.
  - rewrite Z.log2_pow2 by lia. reflexivity.
  - rewrite repeat_length, Z2Nat.id; auto. apply Z.pow_nonneg. lia.
  - apply placed_empty.
Qed.
End P.
