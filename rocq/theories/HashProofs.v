From Coq Require Import List Bool ZArith Lia Permutation.
From Verif Require Import Outcome HashModel HashSpec HashApi.
Import ListNotations.
Local Open Scope Z_scope.
Ltac Zify.zify_post_hook ::= idtac.

(** ** generic list facts *)
Lemma set_nth_split : forall {A} (b1 b2 : list A) c c', set_nth (length b1) c' (b1 ++ c :: b2) = b1 ++ c' :: b2.
Proof. induction b1; intros; cbn; auto. now rewrite IHb1. Qed.
Lemma nth_split : forall {A} (l : list A) n x, nth_error l n = Some x -> exists a b, l = a ++ x :: b /\ length a = n.
Proof. intros. apply nth_error_split in H. destruct H as (a & b & H1 & H2). eauto. Qed.
Lemma concat_mid : forall {A} (b1 b2 : list (list A)) c, concat (b1 ++ c :: b2) = concat b1 ++ c ++ concat b2.
Proof. intros. now rewrite concat_app. Qed.
Lemma filter_id : forall {A} (f : A -> bool) l, Forall (fun x => f x = true) l -> filter f l = l.
Proof. induction 1; cbn; auto. rewrite H. now f_equal. Qed.
Lemma concat_map_filter : forall {A} (f : A -> bool) (b : list (list A)), concat (map (filter f) b) = filter f (concat b).
Proof. induction b; cbn; auto. now rewrite filter_app, IHb. Qed.
Lemma concat_map_map : forall {A B} (f : A -> B) (b : list (list A)), concat (map (map f) b) = map f (concat b).
Proof. induction b; cbn; auto. now rewrite map_app, IHb. Qed.

Lemma NoDup_app_remove_l : forall {A} (l l' : list A), NoDup (l ++ l') -> NoDup l'.
Proof. induction l; cbn; intros; auto. inversion H; auto. Qed.
Lemma NoDup_app_remove_r : forall {A} (l l' : list A), NoDup (l ++ l') -> NoDup l.
Proof.
  induction l; cbn; intros; [constructor|]. inversion H; subst. constructor; eauto. intro; apply H2, in_or_app; auto.
Qed.

Section P.
Context {K V : Type}.
Variable hashfn : K -> Z.
Variable cmpfn : K -> K -> bool.
Hypothesis KO : key_ok hashfn cmpfn.
Notation hentry := (hentry K V).
Notation htable := (htable K V).
Implicit Types (e : hentry) (t : htable) (c : list hentry) (b : list (list hentry)).

Lemma hash2index_range : forall bits h, 0 <= bits -> 0 <= hash2index (2 ^ bits) bits h < 2 ^ bits.
Proof.
  intros bits h Hb. unfold hash2index.
  replace (2 ^ bits - 1) with (Z.ones bits) by (rewrite Z.ones_equiv; lia).
  rewrite Z.land_ones by lia. apply Z.mod_pos_bound. apply Z.pow_pos_nonneg; lia.
Qed.

(** keys pairwise inequivalent *)
Fixpoint kdist c : Prop :=
  match c with [] => True | e :: r => Forall (fun x => cmpfn (ekey e) (ekey x) = false) r /\ kdist r end.
Lemma kdist_perm : forall c c', Permutation c c' -> kdist c -> kdist c'.
Proof.
  induction 1; cbn; auto.
  - intros [H1 H2]. split; auto. eapply Permutation_Forall; eauto.
  - intros [H1 [H2 H3]]. inversion H1; subst. repeat split; auto. constructor; auto. now rewrite (ko_sym _ _ KO).
Qed.
Definition others key c := Forall (fun x => cmpfn key (ekey x) = false) c.
Lemma kdist_mid : forall (a : list hentry) e (b : list hentry) key, kdist (a ++ e :: b) -> cmpfn key (ekey e) = true -> others key (a ++ b).
Proof.
  intros a e b key H Hk. assert (H' : kdist (e :: a ++ b)) by (eapply kdist_perm; [|exact H]; symmetry; apply Permutation_middle).
  destruct H' as [H1 _]. eapply Forall_impl; [|exact H1]. cbn. intros x Hx.
  destruct (cmpfn key (ekey x)) eqn:E; auto. rewrite <- Hx. symmetry.
  eapply (ko_trans _ _ KO); [|exact E]. rewrite (ko_sym _ _ KO). exact Hk.
Qed.

Definition placed (nb bits : Z) b : Prop := forall i c e, nth_error b i = Some c -> In e c ->
  hash2index nb bits (ehash e) = Z.of_nat i.
Definition hashed c : Prop := Forall (fun e => ehash e = hashfn (ekey e)) c.

Record hinv t : Prop := {
  hi_log : 0 <= num_log2 t <= 30;
  hi_nb : num_buckets t = 2 ^ num_log2 t;
  hi_len : Z.of_nat (length (buckets t)) = num_buckets t;
  hi_placed : placed (num_buckets t) (num_log2 t) (buckets t);
  hi_hashed : hashed (concat (buckets t));
  hi_dist : kdist (concat (buckets t));
  hi_ids : NoDup (map eid (concat (buckets t)));
  hi_fresh : Forall (fun e => (eid e < hfresh t)%nat) (concat (buckets t));
  hi_num : num_entries t = Z.of_nat (length (concat (buckets t)));
}.
Definition hfull c : Prop := Forall (fun e => evalue e <> None) c.
Fixpoint hvals c : fmap K V :=
  match c with
  | [] => []
  | e :: r => match evalue e with Some v => (ekey e, v) :: hvals r | None => hvals r end
  end.
Definition habs t := hvals (concat (buckets t)).

Lemma hvals_app : forall a c, hvals (a ++ c) = hvals a ++ hvals c.
Proof. induction a as [|e a IH]; intros; cbn; auto. destruct (evalue e); cbn; now rewrite IH. Qed.
Lemma hvals_perm : forall a c, Permutation a c -> Permutation (hvals a) (hvals c).
Proof.
  induction 1; cbn; auto.
  - destruct (evalue x); auto.
  - destruct (evalue x), (evalue y); auto. apply perm_swap.
  - etransitivity; eauto.
Qed.
Lemma hvals_len : forall c, hfull c -> length (hvals c) = length c.
Proof. induction 1; cbn; auto. destruct (evalue x); [cbn; now rewrite IHForall|congruence]. Qed.
Lemma entry_pairs_ok : forall c, hfull c -> entry_pairs c = Ok (hvals c).
Proof. induction 1; cbn; auto. destruct (evalue x); [now rewrite IHForall|congruence]. Qed.

(** *** chains *)
Lemma chain_find_spec : forall key c, 
  match chain_find cmpfn key c with
  | Some (p, e, s) => c = p ++ e :: s /\ cmpfn key (ekey e) = true
  | None => others key c
  end.
Proof.
  induction c as [|e r IH]; cbn; [constructor|].
  destruct (cmpfn key (ekey e)) eqn:E; [auto|].
  destruct (chain_find cmpfn key r) as [[[p x] s]|].
  - destruct IH as [-> H]. auto.
  - constructor; auto.
Qed.

Lemma placed_mid : forall nb bits b1 c b2, placed nb bits (b1 ++ c :: b2) ->
  (forall e, In e c -> hash2index nb bits (ehash e) = Z.of_nat (length b1)).
Proof.
  intros nb bits b1 c b2 P e He. eapply P; [|exact He]. rewrite nth_error_app2, Nat.sub_diag by lia. reflexivity.
Qed.
Lemma placed_change : forall nb bits b1 c c' b2, placed nb bits (b1 ++ c :: b2) ->
  (forall e, In e c' -> hash2index nb bits (ehash e) = Z.of_nat (length b1)) ->
  placed nb bits (b1 ++ c' :: b2).
Proof.
  intros nb bits b1 c c' b2 P H i x e Hn Hi.
  destruct (lt_eq_lt_dec i (length b1)) as [[L| ->]|L].
  - eapply P; [|exact Hi]. rewrite nth_error_app1 in * by auto. exact Hn.
  - rewrite nth_error_app2, Nat.sub_diag in Hn by lia. injection Hn as <-. auto.
  - eapply P; [|exact Hi]. rewrite nth_error_app2 in * by lia.
    destruct (i - length b1)%nat eqn:E; [lia|]. exact Hn.
Qed.
(** all entries in chains other than the key's own have different keys *)
Lemma placed_others : forall nb bits b1 c b2 key, placed nb bits (b1 ++ c :: b2) -> hashed (concat (b1 ++ c :: b2)) ->
  hash2index nb bits (hashfn key) = Z.of_nat (length b1) -> others key (concat b1 ++ concat b2).
Proof.
  intros nb bits b1 c b2 key P Hh Hi. apply Forall_forall. intros e He.
  destruct (cmpfn key (ekey e)) eqn:E; auto. exfalso.
  apply (ko_hash _ _ KO) in E.
  assert (Hin : In e (concat (b1 ++ c :: b2))) by (rewrite concat_mid; rewrite !in_app_iff in *; tauto).
  unfold hashed in Hh. rewrite Forall_forall in Hh. specialize (Hh e Hin). rewrite E, <- Hh in Hi.
  apply in_app_iff in He. destruct He as [He|He]; apply in_concat in He; destruct He as (x & Hx & Hex); apply In_nth_error in Hx; destruct Hx as (n & Hn).
  - assert (n < length b1)%nat by (apply nth_error_Some; congruence).
    rewrite (P n x e) in Hi; auto; [lia|]. rewrite nth_error_app1; auto.
  - rewrite (P (length b1 + S n)%nat x e) in Hi; auto; [lia|]. rewrite nth_error_app2 by lia.
    replace (length b1 + S n - length b1)%nat with (S n) by lia. exact Hn.
Qed.

Lemma hinv_chain : forall t key, hinv t ->
  exists b1 c b2, buckets t = b1 ++ c :: b2 /\
    hash2index (num_buckets t) (num_log2 t) (hashfn key) = Z.of_nat (length b1) /\
    nth_error (buckets t) (Z.to_nat (hash2index (num_buckets t) (num_log2 t) (hashfn key))) = Some c /\
    others key (concat b1 ++ concat b2).
Proof.
  intros t key I. pose proof (hi_log _ I) as HL. pose proof (hash2index_range (num_log2 t) (hashfn key)) as R.
  rewrite <- (hi_nb _ I) in R. specialize (R ltac:(lia)).
  set (ix := hash2index _ _ _) in *. pose proof (hi_len _ I) as Len.
  destruct (nth_error (buckets t) (Z.to_nat ix)) as [c|] eqn:E.
  - pose proof (nth_split _ _ _ E) as (b1 & b2 & E1 & E2). exists b1, c, b2.
    assert (ix = Z.of_nat (length b1)) by lia.
    repeat split; auto. eapply placed_others; [| |exact H].
    + rewrite <- E1. apply I.
    + rewrite <- E1. apply I.
  - apply nth_error_None in E. lia.
Qed.

(** *** rehashing *)
Lemma push_ok : forall nb bits b f, 0 <= bits -> nb = 2 ^ bits -> Z.of_nat (length b) = nb -> placed nb bits b ->
  exists b', bucket_push b (hash2index nb bits (ehash f)) f = Ok b' /\ Z.of_nat (length b') = nb /\ placed nb bits b' /\
    Permutation (concat b') (f :: concat b).
Proof.
  intros nb bits b f Hb -> Len P. pose proof (hash2index_range bits (ehash f) Hb) as R.
  set (ix := hash2index _ _ _) in *. unfold bucket_push.
  destruct (nth_error b (Z.to_nat ix)) as [c|] eqn:E; [|apply nth_error_None in E; lia].
  cbn [of_opt bind]. pose proof (nth_split _ _ _ E) as (b1 & b2 & -> & E2).
  rewrite <- E2, set_nth_split. eexists; split; [reflexivity|].
  rewrite app_length in *. cbn [length] in *. split; [lia|]. split.
  - eapply placed_change; [exact P|]. intros e [<-|He]; [fold ix; lia|]. eapply placed_mid; eauto.
  - rewrite !concat_mid. cbn [app]. symmetry. apply Permutation_middle.
Qed.
Lemma rehash_ok : forall fs nb bits b, 0 <= bits -> nb = 2 ^ bits -> Z.of_nat (length b) = nb -> placed nb bits b ->
  exists b', rehash_loop fs nb bits b = Ok b' /\ Z.of_nat (length b') = nb /\ placed nb bits b' /\
    Permutation (concat b') (fs ++ concat b).
Proof.
  induction fs as [|f fs IH]; intros nb bits b Hb Hn Len P; cbn [rehash_loop].
  - exists b. auto.
  - destruct (push_ok nb bits b f Hb Hn Len P) as (b1 & E1 & L1 & P1 & Q1). rewrite E1. cbn [bind].
    destruct (IH nb bits b1 Hb Hn L1 P1) as (b2 & E2 & L2 & P2 & Q2).
    exists b2. repeat split; auto. rewrite Q2, Q1. cbn [app]. symmetry. apply Permutation_middle.
Qed.
Lemma concat_repeat_nil : forall n, concat (repeat (@nil hentry) n) = [].
Proof. induction n; cbn; auto. Qed.
Lemma placed_empty : forall nb bits n, placed nb bits (repeat [] n).
Proof. intros nb bits n i c e H He. apply nth_error_In in H. apply repeat_spec in H. subst. destruct He. Qed.

(** a table whose entry list grew by one fresh entry *)
Lemma hinv_grow : forall t t' key, hinv t -> others key (concat (buckets t)) ->
  0 <= num_log2 t' <= 30 -> num_buckets t' = 2 ^ num_log2 t' -> Z.of_nat (length (buckets t')) = num_buckets t' ->
  placed (num_buckets t') (num_log2 t') (buckets t') ->
  Permutation (concat (buckets t')) (mkentry (hfresh t) key None (hashfn key) :: concat (buckets t)) ->
  num_entries t' = num_entries t + 1 -> hfresh t' = S (hfresh t) -> hinv t'.
Proof.
  intros t t' key I Oth H1 H2 H3 H4 P H5 H6. constructor; auto.
  - eapply Permutation_Forall; [symmetry; exact P|]. constructor; [reflexivity|apply I].
  - eapply kdist_perm; [symmetry; exact P|]. cbn. split; [exact Oth|apply I].
  - eapply Permutation_NoDup; [symmetry; apply Permutation_map; exact P|]. cbn. constructor; [|apply I].
    intro Hin. apply in_map_iff in Hin. destruct Hin as (x & Hx & Hin).
    pose proof (hi_fresh _ I) as F. rewrite Forall_forall in F. specialize (F x Hin). lia.
  - eapply Permutation_Forall; [symmetry; exact P|]. rewrite H6. constructor; [cbn; lia|].
    eapply Forall_impl; [|apply (hi_fresh _ I)]. cbn. intros; lia.
  - rewrite H5, (hi_num _ I), (Permutation_length P). cbn [length]. lia.
Qed.

Lemma insert_ok : forall t key b1 c b2, hinv t -> num_entries t < INT_MAX ->
  buckets t = b1 ++ c :: b2 -> hash2index (num_buckets t) (num_log2 t) (hashfn key) = Z.of_nat (length b1) ->
  others key (concat (buckets t)) ->
  exists t', insert_entry t key (hashfn key) (Z.of_nat (length b1)) = Ok (t', mkentry (hfresh t) key None (hashfn key))
    /\ hinv t' /\ num_entries t' = num_entries t + 1
    /\ Permutation (concat (buckets t')) (mkentry (hfresh t) key None (hashfn key) :: concat (buckets t)).
Proof.
  intros t key b1 c b2 I N E Hi Oth. unfold insert_entry. set (e := mkentry _ _ _ _).
  pose proof (hi_log _ I) as HL.
  destruct (push_ok (num_buckets t) (num_log2 t) (buckets t) e) as (b' & E1 & L1 & P1 & Q1); try apply I.
  assert (Eq : hash2index (num_buckets t) (num_log2 t) (ehash e) = Z.of_nat (length b1)) by exact Hi.
  rewrite Eq in E1. rewrite E1. cbn [bind].
  destruct (Z.eqb_spec (num_entries t) INT_MAX) as [X|_]; [lia|].
  destruct ((num_buckets t <=? MAX_NUM_BUCKETS) && (num_buckets t * MAX_AVG_CHAIN_LIMITS <? num_entries t + 1)) eqn:G.
  - apply andb_true_iff in G. destruct G as [G _]. apply Z.leb_le in G.
    assert (NB : Z.shiftl (num_buckets t) EXTEND_BITS = 2 ^ (num_log2 t + EXTEND_BITS)).
    { rewrite Z.shiftl_mul_pow2 by (unfold EXTEND_BITS; lia). rewrite (hi_nb _ I), Z.pow_add_r by (unfold EXTEND_BITS; lia). reflexivity. }
    assert (LB : num_log2 t + EXTEND_BITS <= 30).
    { unfold EXTEND_BITS. assert (num_log2 t < 29); [|lia]. rewrite (hi_nb _ I) in G.
      apply (Z.pow_lt_mono_r_iff 2); try lia. change MAX_NUM_BUCKETS with 536870911 in G. change (2^29) with 536870912. lia. }
    destruct (rehash_ok (concat b') (Z.shiftl (num_buckets t) EXTEND_BITS) (num_log2 t + EXTEND_BITS) (repeat [] (Z.to_nat (Z.shiftl (num_buckets t) EXTEND_BITS))))
      as (b2' & E2 & L2 & P2 & Q2).
    { unfold EXTEND_BITS; lia. } { exact NB. }
    { rewrite repeat_length, Z2Nat.id; auto. rewrite NB. apply Z.pow_nonneg. lia. }
    { apply placed_empty. }
    rewrite E2. cbn [bind]. eexists; split; [reflexivity|].
    rewrite concat_repeat_nil, app_nil_r in Q2.
    assert (Q : Permutation (concat b2') (e :: concat (buckets t))) by (etransitivity; eauto).
    split; [|split; [reflexivity|exact Q]].
    eapply (hinv_grow t _ key); cbn [num_log2 num_buckets buckets num_entries hfresh]; auto. unfold EXTEND_BITS in *; lia.
  - eexists; split; [reflexivity|]. split; [|split; [reflexivity|exact Q1]].
    eapply (hinv_grow t _ key); cbn [num_log2 num_buckets buckets num_entries hfresh]; auto; apply I.
Qed.

(** *** deletion *)
Definition rm (id : nat) c := filter (fun e => negb (Nat.eqb (eid e) id)) c.
Lemma rm_notin : forall id c, ~ In id (map eid c) -> rm id c = c.
Proof.
  intros id c H. apply filter_id. apply Forall_forall. intros x Hx. apply negb_true_iff, Nat.eqb_neq.
  intros <-. apply H. now apply in_map.
Qed.
Lemma rm_mid : forall (a : list hentry) e (b : list hentry), NoDup (map eid (a ++ e :: b)) -> rm (eid e) (a ++ e :: b) = a ++ b.
Proof.
  intros a e b N. rewrite map_app in N. cbn in N. apply NoDup_remove_2 in N. rewrite in_app_iff in N.
  unfold rm. rewrite filter_app. cbn [filter]. rewrite Nat.eqb_refl. cbn [negb].
  f_equal; apply rm_notin; tauto.
Qed.
Lemma rm_bucket_notin : forall id b, ~ In id (map eid (concat b)) -> map (rm id) b = b.
Proof.
  induction b as [|c b IH]; cbn; intro H; auto. rewrite map_app, in_app_iff in H. rewrite rm_notin, IH; tauto.
Qed.
Lemma rm_buckets : forall b1 pre e post b2, NoDup (map eid (concat (b1 ++ (pre ++ e :: post) :: b2))) ->
  map (rm (eid e)) (b1 ++ (pre ++ e :: post) :: b2) = b1 ++ (pre ++ post) :: b2.
Proof.
  intros b1 pre e post b2 N. rewrite concat_mid in N.
  rewrite map_app. cbn [map].
  assert (N1 : ~ In (eid e) (map eid (concat b1)) /\ ~ In (eid e) (map eid (concat b2)) /\ NoDup (map eid (pre ++ e :: post))).
  { split; [|split].
    3:{ rewrite !(map_app eid) in N. apply NoDup_app_remove_l, NoDup_app_remove_r in N. now rewrite map_app. }
    all: replace (concat b1 ++ (pre ++ e :: post) ++ concat b2) with ((concat b1 ++ pre) ++ e :: (post ++ concat b2)) in N
      by (rewrite <- !app_assoc; reflexivity);
      rewrite (map_app eid (concat b1 ++ pre)) in N; cbn [map] in N; apply NoDup_remove_2 in N;
      rewrite !map_app, !in_app_iff in N; tauto. }
  destruct N1 as (N1 & N2 & N3). rewrite !rm_bucket_notin, rm_mid by auto. reflexivity.
Qed.

Lemma NoDup_filter_map : forall (f : hentry -> bool) c, NoDup (map eid c) -> NoDup (map eid (filter f c)).
Proof.
  induction c as [|e c IH]; cbn; intro N; auto. inversion N; subst. destruct (f e); cbn; auto. constructor; auto.
  intro H. apply H1. apply in_map_iff in H. destruct H as (x & Hx & H). apply filter_In in H. rewrite <- Hx. apply in_map. tauto.
Qed.
Lemma kdist_filter : forall (f : hentry -> bool) c, kdist c -> kdist (filter f c).
Proof.
  induction c as [|e c IH]; cbn; auto. intros [H1 H2]. destruct (f e); cbn; auto. split; auto.
  apply Forall_forall. intros x Hx. apply filter_In in Hx. rewrite Forall_forall in H1. apply H1. tauto.
Qed.
Lemma Forall_filter : forall {A} (P : A -> Prop) (f : A -> bool) l, Forall P l -> Forall P (filter f l).
Proof. intros A P f l H. rewrite Forall_forall in *. intros x Hx. apply filter_In in Hx. apply H. tauto. Qed.

Lemma hinv_rm : forall t id n, hinv t -> n = Z.of_nat (length (rm id (concat (buckets t)))) ->
  hinv (mktable (map (rm id) (buckets t)) (num_buckets t) (num_log2 t) n (hfresh t)).
Proof.
  intros t id n I Hn. assert (C : concat (map (rm id) (buckets t)) = rm id (concat (buckets t))) by apply concat_map_filter.
  constructor; cbn [num_log2 num_buckets buckets num_entries hfresh]; try apply I; rewrite ?C.
  - rewrite map_length. apply I.
  - intros i c e Hi He. rewrite nth_error_map in Hi. destruct (nth_error (buckets t) i) eqn:E; [|discriminate].
    injection Hi as <-. apply filter_In in He. eapply (hi_placed _ I); [exact E|tauto].
  - apply Forall_filter, I.
  - apply kdist_filter, I.
  - apply NoDup_filter_map, I.
  - apply Forall_filter, I.
  - exact Hn.
Qed.

Lemma delete_ok : forall t key, hinv t ->
  (others key (concat (buckets t)) /\ core_search hashfn cmpfn t key DDelete = Ok (t, None)) \/
  exists (t' : htable) e (a b : list hentry), core_search hashfn cmpfn t key DDelete = Ok (t', Some e) /\ hinv t' /\
    concat (buckets t) = a ++ e :: b /\ cmpfn key (ekey e) = true /\
    buckets t' = map (rm (eid e)) (buckets t) /\ num_entries t' = num_entries t - 1.
Proof.
  intros t key I. destruct (hinv_chain t key I) as (b1 & c & b2 & E & Hi & Hn & Oth).
  unfold core_search. rewrite Hn. cbn [of_opt bind]. pose proof (chain_find_spec key c) as F.
  destruct (chain_find cmpfn key c) as [[[p e] s]|].
  - right. destruct F as [-> Hk]. unfold delete_entry.
    pose proof (hi_num _ I) as N. rewrite E, concat_mid in N. rewrite !app_length in N. cbn [length] in N.
    unfold assert. destruct (Z.leb_spec 0 (num_entries t - 1)); [|lia]. cbn [bind fst snd].
    pose proof (hi_ids _ I) as Nd. rewrite E in Nd. apply rm_buckets in Nd.
    assert (SN : set_nth (length b1) (p ++ s) (buckets t) = map (rm (eid e)) (buckets t)).
    { rewrite E, set_nth_split. now rewrite Nd. }
    rewrite Hi, Nat2Z.id, SN.
    eexists _, e, (concat b1 ++ p), (s ++ concat b2). split; [reflexivity|].
    assert (Ec : concat (buckets t) = (concat b1 ++ p) ++ e :: s ++ concat b2).
    { rewrite E, concat_mid. rewrite <- !app_assoc. reflexivity. }
    split; [|auto]. apply hinv_rm; auto. rewrite (hi_num _ I), Ec.
    rewrite rm_mid by (rewrite <- Ec; apply I). rewrite !app_length. cbn [length]. rewrite app_length. lia.
  - left. cbn [bind]. split; auto. rewrite E, concat_mid. unfold others in *. rewrite !Forall_app in *. tauto.
Qed.

Lemma get_ok : forall t key op, hinv t -> op <> DDelete -> (op = DCreate -> num_entries t < INT_MAX) ->
  (exists e (a b : list hentry), concat (buckets t) = a ++ e :: b /\ cmpfn key (ekey e) = true /\
     core_search hashfn cmpfn t key op = Ok (t, Some e)) \/
  (others key (concat (buckets t)) /\
   match op with
   | DCreate => exists t', core_search hashfn cmpfn t key op = Ok (t', Some (mkentry (hfresh t) key None (hashfn key)))
       /\ hinv t' /\ num_entries t' = num_entries t + 1
       /\ Permutation (concat (buckets t')) (mkentry (hfresh t) key None (hashfn key) :: concat (buckets t))
   | _ => core_search hashfn cmpfn t key op = Ok (t, None)
   end).
Proof.
  intros t key op I Nd Hc. destruct (hinv_chain t key I) as (b1 & c & b2 & E & Hi & Hn & Oth).
  unfold core_search. rewrite Hn. cbn [of_opt bind]. pose proof (chain_find_spec key c) as F.
  destruct (chain_find cmpfn key c) as [[[p e] s]|].
  - left. destruct F as [-> Hk]. exists e, (concat b1 ++ p), (s ++ concat b2).
    split; [rewrite E, concat_mid, <- !app_assoc; reflexivity|]. split; auto. destruct op; auto. congruence.
  - right. assert (O2 : others key (concat (buckets t))).
    { rewrite E, concat_mid. unfold others in *. rewrite !Forall_app in *. tauto. }
    split; auto. destruct op; [reflexivity| |congruence].
    destruct (insert_ok t key b1 c b2 I) as (t' & E1 & I1 & N1 & P1); auto.
    rewrite Hi, E1. cbn [bind fst snd]. exists t'. auto.
Qed.

(** *** storing *)
Definition hupd (id : nat) (v : V) e := if Nat.eqb (eid e) id then mkentry (eid e) (ekey e) (Some v) (ehash e) else e.
Lemma hupd_id : forall id v e, eid (hupd id v e) = eid e /\ ekey (hupd id v e) = ekey e /\ ehash (hupd id v e) = ehash e.
Proof. intros. unfold hupd. destruct (Nat.eqb _ _); auto. Qed.
Lemma hupd_notin : forall id v c, ~ In id (map eid c) -> map (hupd id v) c = c.
Proof.
  induction c as [|e c IH]; cbn; intro H; auto. rewrite IH by tauto. f_equal.
  unfold hupd. destruct (Nat.eqb_spec (eid e) id); tauto.
Qed.
Lemma hupd_mid : forall (a : list hentry) e (b : list hentry) v, NoDup (map eid (a ++ e :: b)) ->
  map (hupd (eid e) v) (a ++ e :: b) = a ++ mkentry (eid e) (ekey e) (Some v) (ehash e) :: b.
Proof.
  intros a e b v N. rewrite map_app in N. cbn in N. apply NoDup_remove_2 in N. rewrite in_app_iff in N.
  rewrite map_app. cbn [map]. rewrite !hupd_notin by tauto. unfold hupd. now rewrite Nat.eqb_refl.
Qed.
Lemma kdist_keys : forall c c', map ekey c = map ekey c' -> kdist c -> kdist c'.
Proof.
  induction c as [|e c IH]; intros [|e' c'] E; try discriminate; auto. cbn in E. injection E as E1 E2.
  intros [H1 H2]. split; [|now apply IH]. clear - E1 E2 H1. revert c' E2. induction c as [|x c IH]; intros [|y c'] E; try discriminate; constructor;
    cbn in E; injection E as E3 E4; inversion H1; subst; [congruence|auto].
Qed.
Lemma set_value_inv : forall t id v, hinv t -> hinv (set_entry_value t id v) /\
  concat (buckets (set_entry_value t id v)) = map (hupd id v) (concat (buckets t)).
Proof.
  intros t id v I. unfold set_entry_value. fold (hupd id v).
  assert (C : concat (map (map (hupd id v)) (buckets t)) = map (hupd id v) (concat (buckets t))) by apply concat_map_map.
  split; [|exact C].
  constructor; cbn [num_log2 num_buckets buckets num_entries hfresh]; try apply I; fold (hupd id v); rewrite ?C.
  - rewrite map_length. apply I.
  - intros i c e Hi He. rewrite nth_error_map in Hi. destruct (nth_error (buckets t) i) eqn:E; [|discriminate].
    injection Hi as <-. apply in_map_iff in He. destruct He as (x & <- & Hx).
    destruct (hupd_id id v x) as (_ & _ & ->). eapply (hi_placed _ I); eauto.
  - apply Forall_forall. intros x Hx. apply in_map_iff in Hx. destruct Hx as (y & <- & Hy).
    destruct (hupd_id id v y) as (_ & -> & ->). pose proof (hi_hashed _ I) as X. unfold hashed in X. rewrite Forall_forall in X. auto.
  - eapply kdist_keys; [|apply I]. rewrite map_map. apply map_ext. intro. now destruct (hupd_id id v a) as (_ & -> & _).
  - rewrite map_map. erewrite map_ext; [apply I|]. intro. now destruct (hupd_id id v a) as (-> & _).
  - apply Forall_forall. intros x Hx. apply in_map_iff in Hx. destruct Hx as (y & <- & Hy).
    destruct (hupd_id id v y) as (-> & _). pose proof (hi_fresh _ I) as X. rewrite Forall_forall in X. auto.
  - rewrite map_length. apply I.
Qed.

(** *** copying *)
Definition strip c := map (fun e => (ekey e, evalue e, ehash e)) c.
Lemma copy_chain_spec : forall c n c' n', copy_chain c n = (c', n') ->
  strip c' = strip c /\ (n' = n + length c)%nat /\ map eid c' = seq n (length c).
Proof.
  induction c as [|e c IH]; intros n c' n' H; cbn in H.
  - inversion H; subst. cbn. auto.
  - destruct (copy_chain c (S n)) as [r m] eqn:E. inversion H; subst. apply IH in E. destruct E as (E1 & E2 & E3).
    unfold strip in *. cbn [map ekey evalue ehash eid length seq]. rewrite E1, E3. repeat split; auto; lia.
Qed.
Lemma copy_buckets_spec : forall b n b' n', copy_buckets b n = (b', n') ->
  map strip b' = map strip b /\ map eid (concat b') = seq n (length (concat b)) /\ (n' = n + length (concat b))%nat.
Proof.
  induction b as [|c b IH]; intros n b' n' H; cbn in H.
  - inversion H; subst. cbn. auto.
  - destruct (copy_chain c n) as [c' n1] eqn:E1. destruct (copy_buckets b n1) as [r n2] eqn:E2.
    inversion H; subst. apply copy_chain_spec in E1. destruct E1 as (A1 & A2 & A3).
    apply IH in E2. destruct E2 as (B1 & B2 & B3). cbn [map concat]. rewrite map_app, A3, B2, app_length.
    rewrite seq_app, <- A2, A1, B1. split; [reflexivity|]. split; [reflexivity|lia].
Qed.
Lemma strip_concat : forall b b', map strip b = map strip b' -> strip (concat b) = strip (concat b').
Proof.
  induction b as [|c b IH]; intros [|c' b'] H; try discriminate; auto. cbn [map concat] in *. injection H as H1 H2.
  unfold strip in *. rewrite !map_app. f_equal; auto.
Qed.
Lemma strip_in : forall c c' e, strip c = strip c' -> In e c -> exists e', In e' c' /\ ekey e' = ekey e /\ evalue e' = evalue e /\ ehash e' = ehash e.
Proof.
  induction c as [|x c IH]; intros [|y c'] e H Hi; try discriminate; [destruct Hi|].
  cbn in H. injection H as H1 H2 H3 H4. destruct Hi as [->|Hi]; [exists y; cbn; auto|].
  destruct (IH c' e H4 Hi) as (e' & ? & ?). exists e'. cbn; auto.
Qed.
Lemma strip_vals : forall c c', strip c = strip c' -> hvals c = hvals c'.
Proof.
  induction c as [|x c IH]; intros [|y c'] H; try discriminate; auto. cbn in H. injection H as H1 H2 H3 H4.
  cbn. rewrite H1, H2, (IH c'); auto.
Qed.
Lemma strip_keys : forall c c', strip c = strip c' -> map (@ekey K V) c = map ekey c'.
Proof. intros c c' H. apply (f_equal (map (fun x => fst (fst x)))) in H. unfold strip in H. rewrite !map_map in H. exact H. Qed.
Lemma strip_len : forall c c', strip c = strip c' -> length c = length c'.
Proof. intros c c' H. apply (f_equal (@length _)) in H. unfold strip in H. now rewrite !map_length in H. Qed.

Lemma copy_ok : forall t, hinv t -> hinv (hash_core_copy t) /\ strip (concat (buckets (hash_core_copy t))) = strip (concat (buckets t))
  /\ num_entries (hash_core_copy t) = num_entries t
  /\ (forall e e', In e (concat (buckets (hash_core_copy t))) -> In e' (concat (buckets t)) -> eid e <> eid e').
Proof.
  intros t I. unfold hash_core_copy. destruct (copy_buckets (buckets t) (hfresh t)) as [b n] eqn:E.
  apply copy_buckets_spec in E. destruct E as (E1 & E2 & E3). pose proof (strip_concat _ _ E1) as S.
  assert (Ids : forall e, In e (concat b) -> (hfresh t <= eid e < n)%nat).
  { intros e He. apply (in_map eid) in He. rewrite E2 in He. apply in_seq in He. lia. }
  split; [|split; [exact S|split; [reflexivity|]]].
  - constructor; cbn [num_log2 num_buckets buckets num_entries hfresh]; try apply I.
    + rewrite <- (hi_len _ I). apply (f_equal (@length _)) in E1. rewrite !map_length in E1. now rewrite E1.
    + intros i c e Hi He.
      assert (X : nth_error (map strip b) i = Some (strip c)) by (rewrite nth_error_map, Hi; reflexivity).
      rewrite E1, nth_error_map in X. destruct (nth_error (buckets t) i) as [c0|] eqn:E0; [|discriminate].
      injection X as X. destruct (strip_in c c0 e (eq_sym X) He) as (e' & H1 & _ & _ & H2). rewrite <- H2.
      eapply (hi_placed _ I); eauto.
    + apply Forall_forall. intros e He. destruct (strip_in _ _ e S He) as (e' & H1 & H2 & _ & H3).
      pose proof (hi_hashed _ I) as X. unfold hashed in X. rewrite Forall_forall in X. rewrite <- H2, <- H3. auto.
    + eapply kdist_keys; [|apply I]. symmetry. now apply strip_keys.
    + rewrite E2. apply seq_NoDup.
    + apply Forall_forall. intros e He. specialize (Ids e He). lia.
    + rewrite (hi_num _ I). symmetry. f_equal. now apply strip_len.
  - cbn [buckets]. intros e e' He He'. specialize (Ids e He). pose proof (hi_fresh _ I) as F.
    rewrite Forall_forall in F. specialize (F e' He'). lia.
Qed.
End P.
