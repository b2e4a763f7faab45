(** syntax-rules: the matcher finds the bindings of the specification *)
From Coq Require Import ZArith List Bool Arith Lia.
From Verif Require Import Outcome SynModel SynSpec SynProofs.
Import ListNotations.
Ltac Zify.zify_post_hook ::= idtac.

Lemma eqd_nil f : eqd f Nil = true <-> f = Nil.
Proof. destruct f; cbn; split; congruence. Qed.
Lemma eqd_atom f z : eqd f (Atom z) = true <-> f = Atom z.
Proof. destruct f; cbn; split; intros H; try discriminate; [apply Z.eqb_eq in H; congruence|]. injection H as ->. apply Z.eqb_refl. Qed.
Lemma pairs_tail fs g : pairs (list_tail fs g) = length fs + pairs g.
Proof. induction fs; cbn; auto. Qed.
Lemma lookup_app s x y : lookup s (x ++ y) = match lookup s x with Some t => Some t | None => lookup s y end.
Proof. induction x as [|[k v] x IH]; cbn; auto. destruct (Z.eqb s k); auto. Qed.
Lemma lookup_none s x : lookup s x = None <-> ~ In s (map fst x).
Proof.
  induction x as [|[k v] x IH]; cbn; [tauto|].
  destruct (Z.eqb_spec s k).
  - split; [discriminate|]. intros H. exfalso. auto.
  - rewrite IH. split; intros H; [intros [->|I]; auto|]. intros I. apply H. auto.
Qed.
Lemma lookup_collect s vs bs : In s vs ->
  lookup s (collect vs bs) = Some (Node (map (fun b => match lookup s b with Some t => t | None => Node [] end) bs)).
Proof.
  unfold collect. induction vs as [|v vs IH]; cbn [In map lookup]; [tauto|].
  intros I. destruct (Z.eqb_spec s v) as [->|N]; auto. apply IH. destruct I; congruence.
Qed.
Lemma collect_names vs bs : map fst (collect vs bs) = vs.
Proof. unfold collect. rewrite map_map. apply map_id. Qed.

Section Proofs.
Variable ell0 : Z -> bool.
Variable under : Z -> bool.
Variable lits : list Z.
Variable same : Z -> datum -> bool.
Notation ell := (SynModel.ell ell0 lits).
Notation is_lit := (SynModel.is_lit lits).
Notation svars := (SynSpec.svars ell is_lit under).
Notation matches := (SynSpec.matches ell is_lit under same).
Notation ends_ell := (SynSpec.ends_ell ell).
Notation vecs_ok := (SynSpec.vecs_ok ell).
Notation mtch := (SynModel.mtch same).
Notation cpd := (SynProofs.cpd ell0 under lits).

Definition iter (sub : cp) := fix iter (n : nat) (form : datum) (mv : matchvec) : option (datum * matchvec) :=
  match n with
  | O => Some (form, mv)
  | S n' => match form with
            | Pair f g => match mtch false sub f mv with Some mv' => iter n' g mv' | None => None end
            | _ => None
            end
  end.
Lemma mtch_ell vec level vars sub following rest form mv :
  mtch vec (CPair (CEll level vars sub following) rest) form mv =
  if vec && eqd form Nil then Some mv
  else match iter sub (pairs form - following) form (enter level vars mv) with
       | Some (form', mv') => mtch false rest form' (exit level vars mv')
       | None => None
       end.
Proof. reflexivity. Qed.
Lemma mtch_pair vec qa qd form mv : is_ell qa = false ->
  mtch vec (CPair qa qd) form mv =
  match form with Pair f g => match mtch false qa f mv with Some mv' => mtch vec qd g mv' | None => None end | _ => None end.
Proof. destruct qa; try discriminate; reflexivity. Qed.

Lemma matches_ell a e q f b : ell e = true ->
  matches (Pair a (Pair (Sym e) q)) f b <->
  exists fs g bs b2, f = list_tail fs g /\ count g = count q /\ Forall2 (matches a) fs bs /\ matches q g b2
    /\ b = collect (svars a) bs ++ b2.
Proof. intros E. cbn [SynSpec.matches]. rewrite E. reflexivity. Qed.
Lemma matches_pair a d f b : (forall e r, d = Pair (Sym e) r -> ell e = false) ->
  matches (Pair a d) f b <->
  exists f1 f2 b1 b2, f = Pair f1 f2 /\ matches a f1 b1 /\ matches d f2 b2 /\ b = b1 ++ b2.
Proof.
  intros E. destruct d as [|[| |e| |] q| | |]; try reflexivity.
  specialize (E e q eq_refl). cbn [SynSpec.matches]. rewrite E. reflexivity.
Qed.
Lemma vecs_ell i a e q : ell e = true -> vecs_ok i (Pair a (Pair (Sym e) q)) -> vecs_ok true a /\ vecs_ok i q.
Proof. intros E. cbn [SynSpec.vecs_ok]. rewrite E. auto. Qed.
Lemma vecs_pair i a d : (forall e r, d = Pair (Sym e) r -> ell e = false) -> vecs_ok i (Pair a d) -> vecs_ok i a /\ vecs_ok i d.
Proof.
  intros E. destruct d as [|[| |e| |] q| | |]; auto. specialize (E e q eq_refl).
  cbn [SynSpec.vecs_ok]. rewrite E. auto.
Qed.
Lemma ends_pair a d : (forall e r, d = Pair (Sym e) r -> ell e = false) -> ends_ell (Pair a d) = ends_ell d.
Proof.
  intros E. destruct d as [|[| |e| |] q| | |]; auto. specialize (E e q eq_refl).
  cbn [SynSpec.ends_ell]. rewrite E. destruct q; auto.
Qed.

(** lengths, for vectors *)
Lemma clen_pairs L p q v : cpd L p q v -> clen q <= pairs p.
Proof. induction 1; cbn [clen pairs]; lia. Qed.
Lemma clen_no_ell L p q v : cpd L p q v -> has_ell q = false -> clen q = pairs p.
Proof.
  induction 1; cbn [clen pairs has_ell]; intros E; auto; try discriminate.
  apply cpd_not_ell in H0. destruct qa; try discriminate; rewrite IHcpd2; auto.
Qed.
Lemma matches_len L p q v : cpd L p q v -> proper p -> forall f b, matches p f b ->
  (has_ell q = false -> pairs f = clen q) /\ (has_ell q = true -> clen q - 1 <= pairs f).
Proof.
  induction 1; cbn [proper]; intros P f b M; try contradiction.
  - destruct M as [-> _]. cbn. lia.
  - apply matches_pair in M; auto. destruct M as (f1 & f2 & b1 & b2 & -> & M1 & M2 & ->).
    destruct (IHcpd2 P f2 b2 M2) as [A B]. apply cpd_not_ell in H0.
    cbn [clen pairs]. replace (has_ell (CPair qa qd)) with (has_ell qd) by (destruct qa; try discriminate; reflexivity).
    split; intros E; [rewrite A by auto; auto|]. specialize (B E). lia.
  - apply matches_ell in M; auto. destruct M as (fs & g & bs & b2 & -> & C & M1 & M2 & ->).
    cbn [has_ell clen]. split; [discriminate|]. intros _. rewrite pairs_tail.
    rewrite (count_pairs g), (count_pairs q) in C. apply clen_pairs in H1.
    lia.
Qed.

Lemma matches_names L p q v : cpd L p q v -> forall f b, matches p f b -> map fst b = svars p.
Proof.
  induction 1; intros f b M.
  - destruct M as [_ ->]. reflexivity.
  - destruct M as [_ ->]. reflexivity.
  - cbn [SynSpec.matches] in M. rewrite H0 in M. destruct M as [_ ->]. cbn [SynSpec.svars]. rewrite H, H0. reflexivity.
  - cbn [SynSpec.matches] in M. rewrite H0, H1 in M. subst. cbn [SynSpec.svars]. rewrite H, H0, H1. reflexivity.
  - cbn [SynSpec.matches] in M. rewrite H0, H1 in M. subst. cbn [SynSpec.svars]. rewrite H, H0, H1. reflexivity.
  - destruct M as (fl & -> & M). cbn [SynSpec.svars]. eauto.
  - apply matches_pair in M; auto. destruct M as (f1 & f2 & b1 & b2 & -> & M1 & M2 & ->).
    rewrite map_app. cbn [SynSpec.svars]. f_equal; eauto.
  - apply matches_ell in M; auto. destruct M as (fs & g & bs & b2 & -> & C & M1 & M2 & ->).
    rewrite map_app, collect_names. cbn [SynSpec.svars]. rewrite H. cbn [orb app]. f_equal. eauto.
Qed.

(** ** a match of the specification is found *)
Definition counts (v : list (Z * pvref)) : list nat := map snd (map snd v).
Definition found (L : nat) (v : list (Z * pvref)) (b : list (Z * tree)) (mv mv' : matchvec) : Prop :=
  (forall s l n, In (s, (l, n)) v -> exists t, lookup s b = Some t /\ eff L l t (mv n) (mv' n)) /\
  (forall n, ~ In n (counts v) -> mv' n = mv n).
Definition ready (L : nat) (v : list (Z * pvref)) (mv : matchvec) : Prop :=
  forall s l n, In (s, (l, n)) v -> pre L l (mv n).
Definition distinct (v : list (Z * pvref)) : Prop := NoDup (map fst v) /\ NoDup (counts v).

Lemma NoDup_app_l {A} (x y : list A) : NoDup (x ++ y) -> NoDup x.
Proof. induction x; cbn; intros H; constructor; inversion H; subst; auto. rewrite in_app_iff in H2. auto. Qed.
Lemma NoDup_app_r {A} (x y : list A) : NoDup (x ++ y) -> NoDup y.
Proof. induction x; cbn; intros H; auto. inversion H; auto. Qed.
Lemma NoDup_app_no {A} (x y : list A) a : NoDup (x ++ y) -> In a x -> In a y -> False.
Proof.
  induction x; cbn; intros H I J; auto. inversion H; subst. rewrite in_app_iff in H2.
  destruct I as [->|I]; auto.
Qed.
Lemma distinct_app v w : distinct (v ++ w) -> distinct v /\ distinct w.
Proof.
  unfold distinct, counts. rewrite !map_app. intros [A B]. split; split; eauto using NoDup_app_l, NoDup_app_r.
Qed.
Lemma counts_app v w : counts (v ++ w) = counts v ++ counts w.
Proof. unfold counts. rewrite !map_app. reflexivity. Qed.
Lemma in_counts s l n v : In (s, (l, n)) v -> In n (counts v).
Proof. intros I. unfold counts. rewrite map_map. apply (in_map (fun x => snd (snd x))) in I. exact I. Qed.
Lemma in_names s l n (v : list (Z * pvref)) : In (s, (l, n)) v -> In s (map fst v).
Proof. intros I. apply (in_map fst) in I. exact I. Qed.

Lemma found_app L v1 v2 b1 b2 mv mv1 mv2 :
  distinct (v1 ++ v2) -> map fst b1 = map fst v1 ->
  found L v1 b1 mv mv1 -> found L v2 b2 mv1 mv2 -> found L (v1 ++ v2) (b1 ++ b2) mv mv2.
Proof.
  intros D N [A1 A2] [B1 B2]. destruct D as [D1 D2]. rewrite map_app in D1. rewrite counts_app in D2. split.
  - intros s l n I. rewrite lookup_app. apply in_app_iff in I as [I|I].
    + destruct (A1 s l n I) as (t & E & F). exists t. rewrite E. split; auto.
      rewrite B2; auto. intros J. eapply NoDup_app_no; [exact D2| |exact J]. eapply in_counts; eauto.
    + destruct (B1 s l n I) as (t & E & F). exists t.
      assert (E1 : lookup s b1 = None).
      { apply lookup_none. rewrite N. intros J. eapply NoDup_app_no; [exact D1|exact J|]. eapply in_names; eauto. }
      rewrite E1. split; auto. rewrite A2 in F; auto. intros J. eapply NoDup_app_no; [exact D2|exact J|]. eapply in_counts; eauto.
  - intros n I. rewrite counts_app, in_app_iff in I. rewrite B2, A2; auto.
Qed.
Lemma ready_frame L v mv mv' : ready L v mv -> (forall n, In n (counts v) -> mv' n = mv n) -> ready L v mv'.
Proof. intros R F s l n I. rewrite F; [eapply R; eauto|]. eapply in_counts; eauto. Qed.
Lemma pre_eff L l t v v' : 1 <= L -> pre L l v -> eff L l t v v' -> pre L l v'.
Proof.
  intros P [->|[A B]] E; [left; reflexivity|]. unfold eff in E. destruct (Nat.eqb_spec l L); [left; auto|].
  right. destruct E as [E1 E2]. rewrite E2. split; auto. apply spine_add'; auto.
Qed.
Lemma effs_cons L l t ts v v1 v2 : 1 <= L -> eff L l t v v1 -> effs L l ts v1 v2 -> effs L l (t :: ts) v v2.
Proof.
  intros P A B. unfold eff, effs in *. destruct (l =? L).
  - destruct A as (d & -> & A). replace (L =? 0) with false in A by (symmetry; apply Nat.eqb_neq; lia).
    destruct A as (A1 & A2 & A3). destruct B as (ds & -> & B1 & B2 & B3).
    exists (d :: ds). split; [reflexivity|]. rewrite B1, B2, B3, A1, A2, A3. cbn [rev]. rewrite <- app_assoc. auto.
  - destruct A as [A1 A2]. destruct B as [B1 B2]. split; auto. rewrite B2, A2. reflexivity.
Qed.

Lemma iter_found L a ca va :
  (forall f b mv, wf f -> ready (S L) va mv -> matches a f b -> exists mv', mtch false ca f mv = Some mv' /\ found (S L) va b mv mv') ->
  forall fs bs, Forall2 (matches a) fs bs -> forall g mv, wf (list_tail fs g) -> ready (S L) va mv ->
  exists mv', iter ca (length fs) (list_tail fs g) mv = Some (g, mv') /\
    (forall s l n, In (s, (l, n)) va ->
       effs (S L) l (map (fun b => match lookup s b with Some t => t | None => Node [] end) bs) (mv n) (mv' n)) /\
    (forall n, ~ In n (counts va) -> mv' n = mv n).
Proof.
  intros IH. induction 1 as [|f b fs bs M _ IHf]; intros g mv W R.
  - exists mv. split; [reflexivity|]. split; auto. intros s l n I. unfold effs. destruct (Nat.eqb_spec l (S L)).
    + exists []. auto.
    + destruct (R s l n I) as [->|[A B]]; [lia|]. auto.
  - cbn [list_tail] in W. destruct W as [W1 W2]. destruct (IH f b mv W1 R M) as (mv1 & E1 & F1 & F2).
    destruct (IHf g mv1 W2) as (mv2 & E2 & G1 & G2).
    { intros s l n I. destruct (F1 s l n I) as (t & _ & E). eapply pre_eff; [lia| |exact E]. eapply R; eauto. }
    exists mv2. split; [|split].
    + cbn [length list_tail iter]. rewrite E1. exact E2.
    + intros s l n I. cbn [map]. destruct (F1 s l n I) as (t & E & Ef). rewrite E.
      eapply effs_cons; [lia|exact Ef|]. eapply G1; eauto.
    + intros n I. rewrite G2, F2; auto.
Qed.

Lemma ell_found L va vs mv mv2 :
  map snd va = vs -> NoDup (map snd vs) -> (forall s l n, In (s, (l, n)) va -> S L <= l) -> ready L va mv ->
  (ready (S L) va (enter (S L) vs mv)) /\
  forall ts : Z -> list tree,
  (forall s l n, In (s, (l, n)) va -> effs (S L) l (ts s) (enter (S L) vs mv n) (mv2 n)) ->
  (forall n, ~ In n (counts va) -> mv2 n = enter (S L) vs mv n) ->
  (forall s l n, In (s, (l, n)) va -> eff L l (Node (ts s)) (mv n) (exit (S L) vs mv2 n)) /\
  (forall n, ~ In n (counts va) -> exit (S L) vs mv2 n = mv n).
Proof.
  intros <- ND Lv R.
  destruct (enter_spec (S L) (map snd va) mv ND) as [E1 E2].
  assert (V : forall s l n, In (s, (l, n)) va -> In (l, n) (map snd va)).
  { intros s l n I. apply (in_map snd) in I. exact I. }
  split.
  - intros s l n I. rewrite (E2 l n (V s l n I)). specialize (Lv s l n I).
    destruct (R s l n I) as [->|[A B]]; [lia|]. right.
    destruct (grow_branch_add L (mv n) B) as (G1 & G2 & G3). rewrite G1, G2. split; auto. apply spine_add; auto.
  - intros ts T F. destruct (exit_spec (S L) (map snd va) mv2 ND) as [X1 X2]. split.
    + intros s l n I. rewrite (X2 l n (V s l n I)). specialize (T s l n I). rewrite (E2 l n (V s l n I)) in T.
      specialize (Lv s l n I). destruct (R s l n I) as [->|[A B]]; [lia|].
      destruct (grow_branch_add L (mv n) B) as (G1 & G2 & G3).
      unfold eff. replace (l =? L) with false by (symmetry; apply Nat.eqb_neq; lia).
      unfold effs in T. destruct (l =? S L).
      * destruct T as (ds & T1 & T2 & T3 & T4). unfold exit_var. specialize (G3 (Node (ts s))).
        rewrite T2, G1, A, app_nil_r, rev_involutive, T3, T4, <- T1.
        destruct (S L =? 1); cbn [branch root]; auto.
      * destruct T as [T1 T2]. split; auto. rewrite T2, G2. rewrite add_adds by exact B. reflexivity.
    + intros n I. rewrite X1, F, E1; auto.
Qed.

Lemma wf_tail fs g : wf (list_tail fs g) -> wf g.
Proof. induction fs; cbn; tauto. Qed.

Lemma mtch_found L p q v : cpd L p q v -> forall vec f b mv,
  wf p -> wf f -> vecs_ok (negb (L =? 0)) p -> distinct v ->
  (vec = true -> proper p /\ (L <> 0 -> ends_ell p = false)) ->
  ready L v mv -> matches p f b ->
  exists mv', mtch vec q f mv = Some mv' /\ found L v b mv mv'.
Proof.
  induction 1; intros vec f b mv Wp Wf VO D VC R M.
  - destruct M as [-> ->]. exists mv. split; [reflexivity|]. split; auto. intros ? ? ? [].
  - destruct M as [-> ->]. exists mv. cbn [SynModel.mtch eqd]. rewrite Z.eqb_refl. split; [reflexivity|]. split; auto. intros ? ? ? [].
  - cbn [SynSpec.matches] in M. rewrite H0 in M. destruct M as [M ->].
    exists mv. cbn [SynModel.mtch]. rewrite M. split; [reflexivity|]. split; auto. intros ? ? ? [].
  - cbn [SynSpec.matches] in M. rewrite H0, H1 in M. subst.
    exists mv. split; [reflexivity|]. split; auto. intros ? ? ? [].
  - cbn [SynSpec.matches] in M. rewrite H0, H1 in M. subst.
    exists (insert L n f mv). split; [reflexivity|]. split.
    + intros s' l n' [E|[]]. injection E as <- <- <-. exists (Leaf f). cbn [lookup]. rewrite Z.eqb_refl. split; auto.
      unfold eff, insert, upd. rewrite !Nat.eqb_refl. exists f. split; auto. destruct (L =? 0); cbn; auto.
    + intros n' I. unfold insert, upd. cbn in I. destruct (Nat.eqb_spec n' n); [|reflexivity]. subst. tauto.
  - destruct M as (fl & -> & M). cbn [wf] in Wp, Wf. cbn [SynSpec.vecs_ok] in VO. destruct Wp as [Wp1 Wp2]. destruct Wf as [Wf1 Wf2]. destruct VO as [VO1 VO2].
    destruct (matches_len L l q v H Wp1 fl b M) as [LA LB].
    destruct (IHcpd true fl b mv Wp2 Wf2 VO2 D) as (mv' & E & F); auto.
    { intros _. split; auto. intros N. apply VO1. destruct L; [lia|reflexivity]. }
    cbn [SynModel.mtch]. cbv zeta. destruct (Nat.eqb_spec (clen q) 0) as [Z0|Z0].
    + inversion H; subst; cbn [proper] in Wp1; try contradiction; cbn [clen] in Z0; try discriminate.
      destruct M as [-> ->]. cbn. exists mv. split; [reflexivity|]. split; auto. intros ? ? ? [].
    + destruct (has_ell q); cbn [negb andb orb].
      * specialize (LB eq_refl). destruct (Nat.ltb_spec (pairs fl) (clen q - 1)); [lia|]. eauto.
      * rewrite (LA eq_refl), Nat.eqb_refl. cbn [negb orb]. eauto.
  - apply matches_pair in M; auto. destruct M as (f1 & f2 & b1 & b2 & -> & M1 & M2 & ->).
    apply vecs_pair in VO; auto. destruct VO as [VO1 VO2]. destruct Wp as [Wp1 Wp2]. destruct Wf as [Wf1 Wf2].
    destruct (distinct_app _ _ D) as [D1 D2].
    destruct (IHcpd1 false f1 b1 mv Wp1 Wf1 VO1 D1) as (mv1 & E1 & F1); auto; [discriminate| |].
    { intros s l n I. apply (R s l n). apply in_app_iff. auto. }
    destruct (IHcpd2 vec f2 b2 mv1 Wp2 Wf2 VO2 D2) as (mv2 & E2 & F2); auto.
    { intros ->. specialize (VC eq_refl). cbn [proper] in VC. rewrite ends_pair in VC; auto. }
    { eapply ready_frame; [intros s l n I; apply (R s l n); apply in_app_iff; auto|].
      intros n I. apply F1. intros J. destruct D as [_ D]. rewrite counts_app in D. eapply NoDup_app_no; eauto. }
    exists mv2. rewrite mtch_pair by (eapply cpd_not_ell; eauto). rewrite E1. split; [exact E2|].
    eapply found_app; eauto. rewrite (matches_names _ _ _ _ H0 _ _ M1). symmetry. eapply cpd_names; eauto.
  - apply matches_ell in M; auto. destruct M as (fs & g & bs & b2 & -> & C & M1 & M2 & ->).
    apply vecs_ell in VO; auto. destruct VO as [VO1 VO2]. cbn [wf] in Wp. destruct Wp as (Wp1 & _ & Wp2).
    destruct (distinct_app _ _ D) as [D1 D2]. rewrite (count_pairs g), (count_pairs q) in C.
    assert (R1 : ready L va mv) by (intros s l n I; apply (R s l n); apply in_app_iff; auto).
    assert (R2 : ready L vq mv) by (intros s l n I; apply (R s l n); apply in_app_iff; auto).
    assert (Lv : forall s l n, In (s, (l, n)) va -> S L <= l) by (eapply cpd_levels; eauto).
    rewrite mtch_ell. destruct (vec && eqd (list_tail fs g) Nil) eqn:EV.
    + apply andb_prop in EV as [-> EV]. apply eqd_nil in EV. destruct fs; [|discriminate]. cbn in EV. subst g.
      inversion M1; subst. cbn [pairs] in C. specialize (VC eq_refl). cbn [proper] in VC. destruct VC as [P VC].
      destruct q; try discriminate; try contradiction. destruct M2 as [_ ->].
      inversion H1; subst. rewrite !app_nil_r in *.
      assert (L = 0) as ->.
      { destruct L; auto. cbn [SynSpec.ends_ell] in VC. rewrite H in VC. specialize (VC ltac:(lia)). discriminate. }
      exists mv. split; [reflexivity|]. split; auto.
      intros s l n I. exists (Node []). split.
      { rewrite lookup_collect; [reflexivity|]. rewrite <- (cpd_names _ _ _ _ _ _ _ H0). eapply in_names; eauto. }
      unfold eff. specialize (Lv s l n I). replace (l =? 0) with false by (symmetry; apply Nat.eqb_neq; lia).
      destruct (R1 s l n I) as [->|[A B]]; [lia|]. cbn [add]. cbn [spine] in B. auto.
    + rewrite pairs_tail, C. replace (length fs + pairs q - pairs q) with (length fs) by lia.
      assert (NDv : NoDup (map snd (map snd va))) by apply D1.
      destruct (ell_found L va _ mv mv eq_refl NDv Lv R1) as [R3 _].
      destruct (iter_found L a ca va) with (fs := fs) (bs := bs) (g := g) (mv := enter (S L) (map snd va) mv) as (mv2 & E2 & G1 & G2); auto.
      { intros f b mv0 W0 R0 M0. apply (IHcpd1 false); auto. discriminate. }
      destruct (ell_found L va _ mv mv2 eq_refl NDv Lv R1) as [_ X].
      destruct (X _ G1 G2) as [X1 X2]. clear X. rewrite E2.
      assert (F1 : found L va (collect (svars a) bs) mv (exit (S L) (map snd va) mv2)).
      { split; auto. intros s l n I. eexists. split; [|apply (X1 s l n I)].
        apply lookup_collect. rewrite <- (cpd_names _ _ _ _ _ _ _ H0). eapply in_names; eauto. }
      destruct (IHcpd2 false g b2 (exit (S L) (map snd va) mv2)) as (mv3 & E3 & F3); auto.
      { eapply wf_tail; eauto. } { discriminate. }
      { eapply ready_frame; [exact R2|].
        intros n I. apply X2. intros J. destruct D as [_ D]. rewrite counts_app in D. eapply NoDup_app_no; eauto. }
      exists mv3. split; auto. eapply found_app; eauto. rewrite collect_names. symmetry. eapply cpd_names; eauto.
Qed.

(** ** what is found is a match of the specification *)
Lemma iter_matches a ca (IH : forall f mv mv', wf f -> mtch false ca f mv = Some mv' -> exists b, matches a f b) :
  forall n f mv g mv', wf f -> n <= pairs f -> iter ca n f mv = Some (g, mv') ->
  exists fs bs, f = list_tail fs g /\ length fs = n /\ Forall2 (matches a) fs bs.
Proof.
  induction n as [|n IHn]; intros f mv g mv' W N E.
  - cbn in E. injection E as -> ->. exists [], []. repeat split. constructor.
  - cbn [iter] in E. destruct f as [|f1 f2| | |]; try discriminate. destruct (mtch false ca f1 mv) eqn:E1; [|discriminate].
    destruct W as [W1 W2]. cbn [pairs] in N. apply IHn in E; auto; [|lia]. apply IH in E1; auto. destruct E1 as (b1 & M1).
    destruct E as (fs & bs & -> & <- & F). exists (f1 :: fs), (b1 :: bs). repeat split. constructor; auto.
Qed.
Lemma list_tail_wf fs g : wf (list_tail fs g) -> wf g.
Proof. apply wf_tail. Qed.
Lemma mtch_short L p q v : cpd L p q v -> forall vec f mv mv', has_ell q = false ->
  mtch vec q f mv = Some mv' -> clen q <= pairs f.
Proof.
  induction 1; intros vec f mv mv' E M; try (cbn; lia); try discriminate.
  rewrite mtch_pair in M by (eapply cpd_not_ell; eauto).
  destruct f as [|f1 f2| | |]; try discriminate. destruct (mtch false qa f1 mv); [|discriminate].
  cbn [clen pairs]. apply le_n_S. eapply IHcpd2; eauto. apply cpd_not_ell in H0. destruct qa; try discriminate; exact E.
Qed.
Lemma mtch_matches L p q v : cpd L p q v -> forall vec f mv mv',
  wf p -> wf f -> (vec = true -> proper p /\ (has_ell q = true -> clen q - 1 <= pairs f)) ->
  mtch vec q f mv = Some mv' -> exists b, matches p f b.
Proof.
  induction 1; intros vec f mv mv' Wp Wf VC M; cbn [SynModel.mtch] in M.
  - destruct (eqd f Nil) eqn:E; [|discriminate]. apply eqd_nil in E. exists []. cbn. auto.
  - destruct (eqd f (Atom z)) eqn:E; [|discriminate]. apply eqd_atom in E. exists []. cbn. auto.
  - destruct (same s f) eqn:E; [|discriminate]. exists []. cbn [SynSpec.matches]. rewrite H0. auto.
  - eexists. cbn [SynSpec.matches]. rewrite H0, H1. reflexivity.
  - eexists. cbn [SynSpec.matches]. rewrite H0, H1. reflexivity.
  - destruct f as [| | | |fl]; try discriminate. cbn [wf] in Wp, Wf. destruct Wp as [Wp1 Wp2]. destruct Wf as [Wf1 Wf2].
    cbv zeta in M. destruct (Nat.eqb_spec (clen q) 0) as [Z0|Z0].
    + destruct (Nat.eqb_spec (pairs fl) 0) as [Z1|Z1]; [|discriminate].
      inversion H; subst; cbn [proper] in Wp1; try contradiction; cbn [clen] in Z0; try discriminate.
      destruct fl; cbn in Wf1, Z1; try contradiction; try discriminate. exists [], Nil. cbn. auto.
    + destruct ((negb (has_ell q) && negb (clen q =? pairs fl)) || (has_ell q && (pairs fl <? clen q - 1))) eqn:E; [discriminate|].
      destruct (IHcpd true fl mv mv' Wp2 Wf2) as (b & Mb); auto.
      { intros _. split; auto. intros Eh. rewrite Eh in E. cbn in E. apply Nat.ltb_ge in E. exact E. }
      exists b. exists fl. auto.
  - change (mtch vec (CPair qa qd) f mv = Some mv') in M.
    rewrite mtch_pair in M by (eapply cpd_not_ell; eauto).
    destruct f as [|f1 f2| | |]; try discriminate. destruct (mtch false qa f1 mv) as [mv1|] eqn:E1; [|discriminate].
    destruct Wp as [Wp1 Wp2]. destruct Wf as [Wf1 Wf2].
    destruct (IHcpd1 false f1 mv mv1 Wp1 Wf1) as (b1 & M1); auto; [discriminate|].
    destruct (IHcpd2 vec f2 mv1 mv' Wp2 Wf2) as (b2 & M2); auto.
    { intros E. specialize (VC E). cbn [proper] in VC. destruct VC as [A B]. split; auto. intros Eh.
      cbn [clen pairs] in B. apply cpd_not_ell in H0. destruct qa; try discriminate; cbn [has_ell] in B; specialize (B Eh); lia. }
    exists (b1 ++ b2). apply matches_pair; auto. exists f1, f2, b1, b2. auto.
  - change (mtch vec (CPair (CEll (S L) (map snd va) ca (pairs q)) cq) f mv = Some mv') in M.
    rewrite mtch_ell in M. cbn [wf] in Wp. destruct Wp as (Wp1 & _ & Wp2).
    destruct (vec && eqd f Nil) eqn:EV.
    + apply andb_prop in EV as [-> EV]. apply eqd_nil in EV. subst f.
      destruct (VC eq_refl) as [P V]. cbn [has_ell clen pairs] in V. specialize (V eq_refl).
      cbn [proper] in P.
      assert (q = Nil) as ->.
      { inversion H1; subst; cbn [proper clen] in P, V; try contradiction; auto; try lia. }
      eexists. apply matches_ell; auto. exists [], Nil, [], []. cbn. repeat split. constructor.
    + destruct (iter ca (pairs f - pairs q) f (enter (S L) (map snd va) mv)) as [[g mv1]|] eqn:E1; [|discriminate].
      apply (iter_matches a ca) in E1; auto; [| |lia].
      * destruct E1 as (fs & bs & -> & N & F).
        destruct (IHcpd2 false g _ mv' Wp2 (wf_tail _ _ Wf) ltac:(discriminate) M) as (b2 & M2).
        eexists. apply matches_ell; auto. exists fs, g, bs, b2. repeat split; auto.
        rewrite (count_pairs g), (count_pairs q). rewrite pairs_tail in N.
        pose proof (mtch_short _ _ _ _ H1 _ _ _ _ H2 M) as K. rewrite (clen_no_ell _ _ _ _ H1 H2) in K. lia.
      * intros f0 m m' W0 M0. apply (IHcpd1 false f0 m m'); auto. discriminate.
Qed.
End Proofs.
