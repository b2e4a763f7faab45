From Coq Require Import List Bool ZArith Lia Permutation.
From Verif Require Import Outcome TopoModel TopoSpec.
Import ListNotations.
Local Open Scope Z_scope.
Ltac Zify.zify_post_hook ::= idtac.

Section TP.
Context {V : Type} (eqv : V -> V -> bool) (EQ : equivalence eqv).
Notation same := (same eqv).
Notation among := (among eqv).
Notation distinct := (distinct eqv).

Lemma s_refl x : same x x. Proof. apply EQ. Qed.
Lemma s_sym x y : same x y -> same y x. Proof. apply EQ. Qed.
Lemma s_trans x y z : same x y -> same y z -> same x z. Proof. apply EQ. Qed.
Lemma eqv_cong x y z : same x y -> eqv x z = eqv y z.
Proof.
  intros H; destruct (eqv x z) eqn:E, (eqv y z) eqn:F; try reflexivity.
  - rewrite <- F; symmetry; eapply s_trans; [apply s_sym, H|exact E].
  - rewrite <- E; eapply s_trans; [exact H|exact F].
Qed.
Lemma among_cong x y l : same x y -> among x l -> among y l.
Proof. intros H (z & Hz & Sz); exists z; split; [exact Hz|]. eapply s_trans; [apply s_sym, H|exact Sz]. Qed.
Lemma among_in x l : In x l -> among x l.
Proof. intros H; exists x; split; [exact H|apply s_refl]. Qed.
Lemma among_dec x l : {among x l} + {~ among x l}.
Proof.
  induction l as [|y l IH]; [right; intros (z & [] & _)|].
  destruct (eqv x y) eqn:E; [left; exists y; split; [left; reflexivity|exact E]|].
  destruct IH as [IH|IH].
  - left; destruct IH as (z & Hz & Sz); exists z; split; [right; exact Hz|exact Sz].
  - right; intros (z & [->|Hz] & Sz); [unfold TopoSpec.same in Sz; congruence|]. apply IH; exists z; tauto.
Qed.
Lemma among_cons x y l : among x (y :: l) <-> same x y \/ among x l.
Proof.
  split.
  - intros (z & [->|Hz] & Sz); [left; exact Sz|right; exists z; tauto].
  - intros [S|(z & Hz & Sz)]; [exists y; cbn; tauto|exists z; cbn; tauto].
Qed.
Lemma among_app x a b : among x (a ++ b) <-> among x a \/ among x b.
Proof.
  split.
  - intros (z & Hz & Sz); apply in_app_iff in Hz; destruct Hz; [left|right]; exists z; tauto.
  - intros [(z & Hz & Sz)|(z & Hz & Sz)]; exists z; rewrite in_app_iff; tauto.
Qed.
Lemma among_perm x a b : Permutation a b -> among x a -> among x b.
Proof. intros P (z & Hz & Sz); exists z; split; [eapply Permutation_in; eassumption|exact Sz]. Qed.
Lemma among_rev x l : among x (rev l) <-> among x l.
Proof. split; apply among_perm; [apply Permutation_sym|]; apply Permutation_rev. Qed.
Lemma distinct_perm a b : Permutation a b -> distinct a -> distinct b.
Proof.
  induction 1 as [|x l l' HP IH|x y l|l l' l'' _ IH1 _ IH2]; cbn [TopoSpec.distinct]; auto.
  - intros [N D]; split; [|auto]. intros A; apply N. eapply among_perm; [apply Permutation_sym, HP|exact A].
  - rewrite !among_cons. intros (N1 & N2 & D). repeat split; auto.
    + intros [S|A]; [|tauto]. apply N1; left; apply s_sym, S.
Qed.
Lemma distinct_app a b : distinct (a ++ b) -> distinct b.
Proof. induction a as [|x a IH]; cbn; tauto. Qed.

(** pigeonhole *)
Lemma distinct_length a b : distinct a -> (forall x, In x a -> among x b) -> (length a <= length b)%nat.
Proof.
  intros D I.
  set (rep := fun x => find (eqv x) b).
  assert (Rs : forall x, In x a -> exists z, rep x = Some z /\ In z b /\ same x z).
  { intros x Hx. destruct (I x Hx) as (z & Hz & Sz). unfold rep. destruct (find (eqv x) b) as [w|] eqn:E.
    - apply find_some in E. exists w; split; [reflexivity|exact E].
    - pose proof (find_none _ _ E z Hz) as F. cbn in F. unfold TopoSpec.same in Sz; congruence. }
  assert (ND : NoDup (map rep a)).
  { clear I. induction a as [|x a IH]; [constructor|]. destruct D as [N D]. cbn [map]. constructor.
    - intros Hin. apply in_map_iff in Hin. destruct Hin as (y & E & Hy).
      destruct (Rs x (or_introl eq_refl)) as (z & Ez & _ & Sx). destruct (Rs y (or_intror Hy)) as (w & Ew & _ & Sy).
      rewrite E, Ez in Ew. injection Ew as <-. apply N. exists y; split; [exact Hy|]. eapply s_trans; [exact Sx|apply s_sym, Sy].
    - apply IH; [exact D|]. intros y Hy; apply Rs; right; exact Hy. }
  assert (Inc : incl (map rep a) (map Some b)).
  { intros o Ho. apply in_map_iff in Ho. destruct Ho as (x & <- & Hx). destruct (Rs x Hx) as (z & -> & Hz & _). apply in_map, Hz. }
  pose proof (NoDup_incl_length ND Inc) as L. rewrite !map_length in L. exact L.
Qed.

(** tables *)
Definition getc (y : V) (t : table V) : Z := match assoc eqv y t with Some (_, c) => c | None => 0 end.
Definition keys {B} (t : list (V * B)) : list V := map fst t.
Definition cnt (y : V) (l : list V) : Z := Z.of_nat (length (filter (eqv y) l)).

Lemma cnt_nil y : cnt y [] = 0. Proof. reflexivity. Qed.
Lemma cnt_cons y x l : cnt y (x :: l) = (if eqv y x then 1 else 0) + cnt y l.
Proof. unfold cnt; cbn [filter]. destruct (eqv y x); cbn [length]; lia. Qed.
Lemma cnt_app y a b : cnt y (a ++ b) = cnt y a + cnt y b.
Proof. unfold cnt; rewrite filter_app, app_length; lia. Qed.
Lemma cnt_nonneg y l : 0 <= cnt y l. Proof. unfold cnt; lia. Qed.
Lemma cnt_pos y l : cnt y l <> 0 <-> among y l.
Proof.
  unfold cnt; split.
  - intros H. destruct (filter (eqv y) l) as [|z r] eqn:E; [cbn in H; lia|].
    assert (Hz : In z (filter (eqv y) l)) by (rewrite E; left; reflexivity).
    apply filter_In in Hz. exists z; exact Hz.
  - intros (z & Hz & Sz) H. assert (Hf : In z (filter (eqv y) l)) by (apply filter_In; split; assumption).
    destruct (filter (eqv y) l); [destruct Hf|cbn in H; lia].
Qed.
Lemma assoc_some {B} y (t : list (V * B)) k c : assoc eqv y t = Some (k, c) -> In (k, c) t /\ same y k.
Proof.
  induction t as [|[k' c'] t IH]; cbn [assoc]; [discriminate|]. destruct (eqv y k') eqn:E.
  - intros [= -> ->]; split; [left; reflexivity|exact E].
  - intros H; destruct (IH H); split; [right; assumption|assumption].
Qed.
Lemma assoc_none {B} y (t : list (V * B)) : assoc eqv y t = None <-> ~ among y (keys t).
Proof.
  induction t as [|[k c] t IH]; cbn [assoc keys map fst].
  - split; [intros _ (z & [] & _)|reflexivity].
  - rewrite among_cons. unfold TopoSpec.same at 1. destruct (eqv y k).
    + split; [discriminate|intros H; exfalso; apply H; left; reflexivity].
    + rewrite IH. split; [intros H [H'|H']; [discriminate|tauto]|tauto].
Qed.
Lemma assoc_key {B} (t : list (V * B)) k c : distinct (keys t) -> In (k, c) t -> assoc eqv k t = Some (k, c).
Proof.
  induction t as [|[k' c'] t IH]; [intros _ []|]. cbn [keys map fst TopoSpec.distinct assoc].
  intros [N D] [E|Hin].
  - injection E as -> ->. replace (eqv k k) with true by (symmetry; apply s_refl). reflexivity.
  - destruct (eqv k k') eqn:E; [|auto]. exfalso; apply N. exists k; split; [|apply s_sym, E].
    apply in_map_iff; exists (k, c); tauto.
Qed.
Lemma set_count_keys y c t : keys (set_count eqv y c t) = keys t.
Proof. induction t as [|[k b] t IH]; cbn; [reflexivity|]. destruct (eqv y k); cbn; [reflexivity|]. f_equal; exact IH. Qed.
Lemma assoc_cong {B} x y (t : list (V * B)) : same x y -> assoc eqv x t = assoc eqv y t.
Proof. intros S; induction t as [|[k c] t IH]; cbn; [reflexivity|]. rewrite (eqv_cong x y k S), IH; reflexivity. Qed.
Lemma getc_set y x c t : among x (keys t) -> getc y (set_count eqv x c t) = if eqv y x then c else getc y t.
Proof.
  unfold getc. induction t as [|[k b] t IH]; [intros (z & [] & _)|].
  cbn [keys map fst set_count]. rewrite among_cons. intros A.
  destruct (eqv x k) eqn:E; cbn [assoc].
  - destruct (eqv y k) eqn:F.
    + replace (eqv y x) with true; [reflexivity|]. symmetry; eapply s_trans; [exact F|apply s_sym, E].
    + destruct (eqv y x) eqn:G; [|reflexivity]. exfalso.
      assert (same y k) by (eapply s_trans; [exact G|exact E]). unfold TopoSpec.same in *; congruence.
  - destruct (eqv y k) eqn:F.
    + destruct (eqv y x) eqn:G; [|reflexivity]. exfalso.
      assert (same x k) by (eapply s_trans; [apply s_sym; exact G|exact F]). unfold TopoSpec.same in *; congruence.
    + apply IH. destruct A as [A|A]; [unfold TopoSpec.same in A; congruence|exact A].
Qed.
Lemma getc_among y t : getc y t <> 0 -> among y (keys t).
Proof.
  unfold getc; destruct (assoc eqv y t) as [[k c]|] eqn:E; [|congruence].
  intros _. apply assoc_some in E. destruct E as [Hin S]. exists k; split; [|exact S]. apply in_map_iff; exists (k, c); tauto.
Qed.

(** set-up *)
Lemma count_edges l : forall t, distinct (keys t) ->
  let t' := fold_left (count_edge eqv) l t in
  distinct (keys t') /\ (forall y, getc y t' = getc y t + cnt y l) /\ (forall y, among y (keys t') <-> among y (keys t) \/ among y l).
Proof.
  induction l as [|x l IH]; intros t D; cbn [fold_left].
  - split; [exact D|]. split; [intros; rewrite cnt_nil; lia|]. intros y; split; [tauto|intros [H|(z & [] & _)]; exact H].
  - assert (S : distinct (keys (count_edge eqv t x)) /\ (forall y, getc y (count_edge eqv t x) = getc y t + (if eqv y x then 1 else 0)) /\
       (forall y, among y (keys (count_edge eqv t x)) <-> among y (keys t) \/ same y x)).
    { unfold count_edge. destruct (assoc eqv x t) as [[k c]|] eqn:E.
      - assert (A : among x (keys t)).
        { apply assoc_some in E. destruct E as [Hin S]. exists k; split; [|exact S]. apply in_map_iff; exists (k, c); tauto. }
        rewrite set_count_keys. split; [exact D|]. split.
        + intros y. rewrite getc_set by exact A. destruct (eqv y x) eqn:F; [|lia].
          unfold getc; rewrite (assoc_cong y x t F), E; lia.
        + intros y; split; [tauto|]. intros [H|H]; [exact H|]. eapply among_cong; [apply s_sym, H|exact A].
      - pose proof (proj1 (assoc_none x t) E) as A. cbn [keys map fst TopoSpec.distinct]. split; [split; [exact A|exact D]|]. split.
        + intros y; unfold getc; cbn [assoc]. destruct (eqv y x) eqn:F; [|lia].
          rewrite (assoc_cong y x t F), E; lia.
        + intros y; rewrite among_cons; tauto. }
    destruct S as (D1 & C1 & A1). destruct (IH _ D1) as (D2 & C2 & A2).
    split; [exact D2|]. split.
    + intros y. rewrite C2, C1, cnt_cons; lia.
    + intros y. rewrite A2, A1, among_cons; tauto.
Qed.
Lemma set_up_flat g : set_up eqv g = fold_left (count_edge eqv) (flat_map snd g) (init_table g).
Proof.
  unfold set_up. generalize (init_table g) as t.
  induction g as [|[k ts] g IH]; intros t; [reflexivity|]. cbn [fold_left flat_map snd]. rewrite fold_left_app. apply IH.
Qed.
Lemma set_up_ok g : distinct (keys g) ->
  distinct (keys (set_up eqv g)) /\ (forall y, getc y (set_up eqv g) = cnt y (flat_map snd g)) /\
  (forall y, among y (keys (set_up eqv g)) <-> is_node eqv g y).
Proof.
  intros D. rewrite set_up_flat.
  assert (K : keys (init_table g) = keys g) by (unfold keys, init_table; rewrite map_map; reflexivity).
  assert (G : forall y, getc y (init_table g) = 0).
  { intros y; unfold getc. destruct (assoc eqv y (init_table g)) as [[k c]|] eqn:E; [|reflexivity].
    apply assoc_some in E. destruct E as [Hin _]. apply in_map_iff in Hin. destruct Hin as (e & [= _ <-] & _); reflexivity. }
  destruct (count_edges (flat_map snd g) (init_table g)) as (D1 & C1 & A1); [rewrite K; exact D|].
  split; [exact D1|]. split; [intros; rewrite C1, G; lia|].
  intros y. rewrite A1, K. unfold is_node. split.
  - intros [(z & Hz & Sz)|(z & Hz & Sz)].
    + apply in_map_iff in Hz. destruct Hz as ([k ts] & <- & Hin). exists k, ts; split; [exact Hin|left; exact Sz].
    + apply in_flat_map in Hz. destruct Hz as ([k ts] & Hin & Hz). exists k, ts; split; [exact Hin|right; exists z; tauto].
  - intros (k & ts & Hin & [Sk|(z & Hz & Sz)]).
    + left; exists k; split; [apply in_map_iff; exists (k, ts); tauto|exact Sk].
    + right; exists z; split; [apply in_flat_map; exists (k, ts); tauto|exact Sz].
Qed.

(** the successors of the entries not yet processed *)
Definition memb (x : V) (l : list V) : bool := existsb (eqv x) l.
Lemma memb_among x l : memb x l = true <-> among x l.
Proof. unfold memb; rewrite existsb_exists; reflexivity. Qed.
Fixpoint pend (g : graph V) (D : list V) : list V :=
  match g with [] => [] | (k, ts) :: r => (if memb k D then [] else ts) ++ pend r D end.
Lemma pend_nil g : pend g [] = flat_map snd g.
Proof. induction g as [|[k ts] g IH]; [reflexivity|]. cbn. rewrite IH; reflexivity. Qed.
Lemma memb_cons k x D : memb k (x :: D) = eqv k x || memb k D.
Proof. reflexivity. Qed.
Lemma pend_none g D x : ~ among x (keys g) -> pend g (x :: D) = pend g D.
Proof.
  induction g as [|[k ts] g IH]; cbn [pend keys map fst]; [reflexivity|]. rewrite among_cons. intros N.
  rewrite IH by tauto. rewrite memb_cons. replace (eqv k x) with false; [reflexivity|].
  symmetry; apply not_true_is_false; intros E; apply N; left; apply s_sym, E.
Qed.
Lemma pend_some g D x k ts : distinct (keys g) -> ~ among x D -> assoc eqv x g = Some (k, ts) ->
  forall y, cnt y (pend g D) = cnt y ts + cnt y (pend g (x :: D)).
Proof.
  induction g as [|[k' ts'] g IH]; [discriminate|]. cbn [keys map fst TopoSpec.distinct assoc].
  intros [N Dk] Nx. destruct (eqv x k') eqn:E.
  - intros [= -> ->] y. cbn [pend]. rewrite memb_cons.
    replace (eqv k x) with true by (symmetry; apply s_sym, E). cbn [orb app].
    replace (memb k D) with false.
    2:{ symmetry; apply not_true_is_false; intros M. apply memb_among in M. apply Nx. eapply among_cong; [apply s_sym, E|exact M]. }
    rewrite cnt_app, pend_none; [lia|]. intros A; apply N. eapply among_cong; [exact E|exact A].
  - intros H y. cbn [pend]. rewrite memb_cons.
    replace (eqv k' x) with false by (symmetry; apply not_true_is_false; intros M; apply s_sym in M; unfold TopoSpec.same in M; congruence).
    cbn [orb]. rewrite !cnt_app, (IH Dk Nx H y). lia.
Qed.
Lemma pend_in g D y : among y (pend g D) <-> exists k ts, In (k, ts) g /\ ~ among k D /\ among y ts.
Proof.
  induction g as [|[k ts] g IH]; cbn [pend].
  - split; [intros (z & [] & _)|intros (k & ts & [] & _)].
  - rewrite among_app, IH. split.
    + intros [A|(k' & ts' & H1 & H2 & H3)].
      * destruct (memb k D) eqn:M; [destruct A as (z & [] & _)|]. exists k, ts; split; [left; reflexivity|]. split; [|exact A].
        intros HA; apply memb_among in HA; congruence.
      * exists k', ts'; split; [right; exact H1|tauto].
    + intros (k' & ts' & [E|H1] & H2 & H3).
      * injection E as -> ->. left. destruct (memb k' D) eqn:M; [apply memb_among in M; tauto|exact H3].
      * right; exists k', ts'; tauto.
Qed.

(** order in the result *)
Lemma before_app l x y r : before eqv l x y -> before eqv (l ++ r) x y.
Proof.
  intros (a & x' & b & y' & c & -> & Sx & Sy). exists a, x', b, y', (c ++ r).
  split; [rewrite <- app_assoc; cbn; rewrite <- app_assoc; reflexivity|tauto].
Qed.
Lemma before_last l x y z : among x l -> same y z -> before eqv (l ++ [z]) x y.
Proof.
  intros (x' & Hx & Sx) Sy. apply in_split in Hx. destruct Hx as (a & b & ->).
  exists a, x', b, z, []. split; [rewrite <- app_assoc; reflexivity|tauto].
Qed.

Record Inv (g : graph V) (t0 : table V) (tos D : list V) (t : table V) (Q R : list V) : Prop := {
  i_keys : keys t = keys t0;
  i_cnt : forall y, getc y t = cnt y tos + cnt y (pend g D);
  i_zero : forall y, among y R <-> among y (keys t0) /\ getc y t = 0;
  i_distinct : distinct R;
  i_perm : Permutation R (Q ++ D);
  i_order : forall x y, edge eqv g x y -> among y R -> before eqv (rev R) x y
}.

Lemma visit_ok g t0 D : forall tos t Q R,
  Inv g t0 tos D t Q R ->
  let '(t', Q', R') := fold_left (visit_to eqv) tos (t, Q, R) in Inv g t0 [] D t' Q' R'.
Proof.
  induction tos as [|x tos IH]; intros t Q R I; [exact I|].
  cbn [fold_left]. destruct I as [IK IC IZ ID IP IO].
  assert (Cx : getc x t = 1 + cnt x tos + cnt x (pend g D)).
  { rewrite IC, cnt_cons. replace (eqv x x) with true by (symmetry; apply s_refl). lia. }
  pose proof (cnt_nonneg x tos) as N1. pose proof (cnt_nonneg x (pend g D)) as N2.
  assert (Ax : among x (keys t)) by (apply getc_among; lia).
  unfold visit_to at 2. destruct (assoc eqv x t) as [[k c]|] eqn:E.
  2:{ apply assoc_none in E. tauto. }
  assert (c = getc x t) as -> by (unfold getc; rewrite E; reflexivity).
  assert (C' : forall y, getc y (set_count eqv x (getc x t - 1) t) = cnt y tos + cnt y (pend g D)).
  { intros y. rewrite getc_set by exact Ax. destruct (eqv y x) eqn:F.
    - replace (getc x t) with (getc y t) by (unfold getc; rewrite (assoc_cong y x t F); reflexivity).
      rewrite IC, cnt_cons, F. lia.
    - rewrite IC, cnt_cons, F. lia. }
  assert (G' : forall y, eqv y x = false -> getc y (set_count eqv x (getc x t - 1) t) = getc y t).
  { intros y F. rewrite getc_set, F by exact Ax; reflexivity. }
  assert (Nx : ~ among x R) by (intros A; apply IZ in A; lia).
  destruct (Z.eqb_spec (getc x t - 1) 0) as [Z0|Z0].
  - apply IH. split.
    + rewrite set_count_keys; exact IK.
    + exact C'.
    + intros y. rewrite among_cons. destruct (eqv y x) eqn:F.
      * split; [|intros _; left; exact F]. intros _. split.
        -- rewrite <- IK. eapply among_cong; [apply s_sym, F|exact Ax].
        -- rewrite getc_set, F by exact Ax. exact Z0.
      * rewrite G' by exact F. rewrite <- IZ. split; [intros [S|A]; [unfold TopoSpec.same in S; congruence|exact A]|tauto].
    + split; [exact Nx|exact ID].
    + cbn [app]. apply perm_skip, IP.
    + intros a b Hab. rewrite among_cons. cbn [rev]. intros [S|A].
      * apply before_last; [|exact S]. apply among_rev.
        destruct Hab as (k' & ts & Hin & Sk & Ab).
        assert (P0 : cnt x (pend g D) = 0) by lia.
        destruct (among_dec k' D) as [AD|ND].
        -- eapply among_perm; [apply Permutation_sym, IP|]. apply among_app; right. eapply among_cong; [apply s_sym, Sk|exact AD].
        -- exfalso. assert (HH : among x (pend g D)).
           { apply pend_in. exists k', ts; split; [exact Hin|]. split; [exact ND|]. eapply among_cong; [exact S|exact Ab]. }
           apply cnt_pos in HH. lia.
      * apply before_app, IO; assumption.
  - apply IH. split.
    + rewrite set_count_keys; exact IK.
    + exact C'.
    + intros y. destruct (eqv y x) eqn:F.
      * split.
        -- intros A. exfalso; apply Nx. eapply among_cong; [exact F|exact A].
        -- intros [_ H0]. rewrite getc_set, F in H0 by exact Ax. lia.
      * rewrite G' by exact F. apply IZ.
    + exact ID.
    + exact IP.
    + exact IO.
Qed.

Lemma traverse_ok g t0 : distinct (keys g) -> forall fuel D t Q R,
  (length t0 < fuel + length D)%nat -> Inv g t0 [] D t Q R ->
  exists t' R' D', traverse eqv fuel g (t, Q, R) = Ok (t', R') /\ Inv g t0 [] D' t' [] R'.
Proof.
  intros Dk; induction fuel as [|fuel IH]; intros D t Q R F I.
  - exfalso. assert (L : (length R <= length (keys t0))%nat).
    { apply distinct_length; [apply I|]. intros x Hx. apply (i_zero _ _ _ _ _ _ _ I). apply among_in, Hx. }
    pose proof (Permutation_length (i_perm _ _ _ _ _ _ _ I)) as LP. rewrite app_length in LP.
    unfold keys in L. rewrite map_length in L. lia.
  - cbn [traverse]. destruct Q as [|x Q]; [exists t, R, D; split; [reflexivity|exact I]|].
    assert (Nx : ~ among x D).
    { pose proof (distinct_perm _ _ (i_perm _ _ _ _ _ _ _ I) (i_distinct _ _ _ _ _ _ _ I)) as DD.
      cbn [app TopoSpec.distinct] in DD. destruct DD as [N _]. intros A; apply N, among_app; right; exact A. }
    assert (IPx : Permutation R (Q ++ x :: D)).
    { rewrite (i_perm _ _ _ _ _ _ _ I). cbn [app]. apply Permutation_middle. }
    destruct (assoc eqv x g) as [[k tos]|] eqn:E.
    + assert (I1 : Inv g t0 tos (x :: D) t Q R).
      { destruct I as [IK IC IZ ID IP IO]; split; auto.
        intros y. rewrite IC, cnt_nil. rewrite (pend_some g D x k tos Dk Nx E y). lia. }
      pose proof (visit_ok g t0 (x :: D) tos t Q R I1) as I2.
      destruct (fold_left (visit_to eqv) tos (t, Q, R)) as [[t2 Q2] R2].
      apply (IH (x :: D)); [cbn [length]; lia|exact I2].
    + apply (IH (x :: D)); [cbn [length]; lia|].
      destruct I as [IK IC IZ ID IP IO]; split; auto.
      intros y. rewrite IC. rewrite (pend_none g D x); [reflexivity|]. apply assoc_none, E.
Qed.

(** positions *)
Fixpoint pos (x : V) (l : list V) : nat := match l with [] => O | y :: r => if eqv x y then O else S (pos x r) end.
Lemma pos_app_not x a b : ~ among x a -> pos x (a ++ b) = (length a + pos x b)%nat.
Proof.
  induction a as [|y a IH]; cbn; [reflexivity|]. rewrite among_cons. intros N.
  replace (eqv x y) with false by (symmetry; apply not_true_is_false; unfold TopoSpec.same in N; tauto).
  rewrite IH by tauto. reflexivity.
Qed.
Lemma distinct_mid a x b : distinct (a ++ x :: b) -> ~ among x a.
Proof.
  intros D. apply (distinct_perm _ (x :: a ++ b)) in D; [|symmetry; apply Permutation_middle].
  destruct D as [N _]. intros A; apply N, among_app; left; exact A.
Qed.
Lemma before_pos l x y : distinct l -> before eqv l x y -> (pos x l < pos y l)%nat.
Proof.
  intros D (a & x' & b & y' & c & -> & Sx & Sy).
  assert (Nx : ~ among x a).
  { intros A. apply (distinct_mid _ _ _ D). eapply among_cong; [exact Sx|exact A]. }
  assert (Ny : ~ among y (a ++ x' :: b)).
  { intros A. replace (a ++ x' :: b ++ y' :: c) with ((a ++ x' :: b) ++ y' :: c) in D by (rewrite <- app_assoc; reflexivity).
    apply (distinct_mid _ _ _ D). eapply among_cong; [exact Sy|exact A]. }
  rewrite (pos_app_not x a) by exact Nx. cbn [pos].
  replace (eqv x x') with true by (symmetry; exact Sx).
  replace (a ++ x' :: b ++ y' :: c) with ((a ++ x' :: b) ++ y' :: c) by (rewrite <- app_assoc; reflexivity).
  rewrite pos_app_not by exact Ny. rewrite app_length; cbn [length]. lia.
Qed.
Lemma before_among l x y : before eqv l x y -> among x l.
Proof. intros (a & x' & b & y' & c & -> & Sx & _). exists x'; split; [apply in_app_iff; right; left; reflexivity|exact Sx]. Qed.
Lemma path_pos g l : distinct l -> (forall x y, edge eqv g x y -> among y l -> before eqv l x y) ->
  forall x y, path eqv g x y -> among y l -> among x l /\ (pos x l < pos y l)%nat.
Proof.
  intros D O. induction 1 as [x y E|x y z E P IH]; intros A.
  - pose proof (O x y E A) as B. split; [eapply before_among, B|apply before_pos; assumption].
  - destruct (IH A) as [Ay L]. pose proof (O x y E Ay) as B. split; [eapply before_among, B|].
    pose proof (before_pos l x y D B). lia.
Qed.
Lemma edge_cong g x y y' : edge eqv g x y -> same y y' -> edge eqv g x y'.
Proof. intros (k & ts & H1 & H2 & H3) S. exists k, ts; split; [exact H1|]. split; [exact H2|]. eapply among_cong; eassumption. Qed.
Lemma path_cong g x y y' : path eqv g x y -> same y y' -> path eqv g x y'.
Proof.
  induction 1 as [x y E|x y z E P IH]; intros S; [apply path_one; eapply edge_cong; eassumption|].
  eapply path_more; [exact E|apply IH, S].
Qed.
Lemma path_app g x y z : path eqv g x y -> path eqv g y z -> path eqv g x z.
Proof. induction 1 as [x y E|x y w E P IH]; intros H; [eapply path_more; eassumption|eapply path_more; [exact E|apply IH, H]]. Qed.

(** walking backwards inside a finite set without sources ends in a cycle *)
Inductive chain (g : graph V) : list V -> Prop :=
| chain_one x : chain g [x]
| chain_cons y x l : edge eqv g y x -> chain g (x :: l) -> chain g (y :: x :: l).
Lemma chain_path g : forall b l y, chain g l -> forall x r, l = x :: b ++ y :: r -> path eqv g x y.
Proof.
  induction b as [|z b IH]; intros l y C x r E; subst l; inversion C; subst.
  - apply path_one; assumption.
  - eapply path_more; [eassumption|]. eapply IH; [eassumption|reflexivity].
Qed.
Lemma chain_suffix g a : forall b, chain g (a ++ b) -> b <> [] -> chain g b.
Proof.
  induction a as [|x a IH]; intros b C N; [exact C|]. cbn in C. inversion C; subst.
  - destruct a, b; try discriminate; congruence.
  - apply IH; [|exact N]. match goal with H : _ :: _ = a ++ b |- _ => rewrite <- H end. assumption.
Qed.
Lemma not_distinct l : ~ distinct l -> exists a x b y c, l = a ++ x :: b ++ y :: c /\ same x y.
Proof.
  induction l as [|x l IH]; cbn [TopoSpec.distinct]; [tauto|]. intros N.
  destruct (among_dec x l) as [(y & Hy & S)|NA].
  - apply in_split in Hy. destruct Hy as (b & c & ->). exists [], x, b, y, c. split; [reflexivity|exact S].
  - destruct IH as (a & x0 & b & y & c & -> & S); [tauto|]. exists (x :: a), x0, b, y, c. split; [reflexivity|exact S].
Qed.
Lemma distinct_dec l : {distinct l} + {~ distinct l}.
Proof.
  induction l as [|x l IH]; cbn [TopoSpec.distinct]; [left; exact Logic.I|].
  destruct (among_dec x l); destruct IH; [right|right|left|right]; tauto.
Qed.
Lemma no_source_cycle g L x : In x L -> (forall y, In y L -> exists z, In z L /\ edge eqv g z y) ->
  exists c, path eqv g c c /\ path eqv g c x.
Proof.
  intros Hx NS.
  assert (Ch : forall n, exists l, length l = S n /\ chain g (l ++ [x]) /\ (forall z, In z l -> In z L)).
  { induction n as [|n IH].
    - destruct (NS x Hx) as (z & Hz & E). exists [z]. split; [reflexivity|]. split; [constructor; [exact E|constructor]|].
      intros w [<-|[]]; exact Hz.
    - destruct IH as (l & Ln & C & I). destruct l as [|y l]; [discriminate|].
      destruct (NS y (I y (or_introl eq_refl))) as (z & Hz & E). exists (z :: y :: l).
      split; [cbn in *; lia|]. split; [cbn in *; constructor; assumption|]. intros w [<-|Hw]; [exact Hz|apply I, Hw]. }
  destruct (Ch (length L)) as (l & Ln & C & I).
  assert (ND : ~ distinct l).
  { intros D. pose proof (distinct_length l L D) as LL. rewrite Ln in LL.
    assert (forall w, In w l -> among w L) by (intros w Hw; apply among_in, I, Hw). specialize (LL H). lia. }
  destruct (not_distinct l ND) as (a & u & b & v & c & -> & S).
  exists u. split.
  - apply (path_cong g u v u); [|apply s_sym, S].
    rewrite <- app_assoc in C. apply chain_suffix in C; [|discriminate].
    eapply (chain_path g b _ v C u (c ++ [x])). cbn. rewrite <- app_assoc. reflexivity.
  - rewrite <- app_assoc in C. apply chain_suffix in C; [|discriminate].
    eapply (chain_path g (b ++ v :: c) _ x C u []). reflexivity.
Qed.

Theorem details_ok g : distinct (keys g) ->
  exists a, topological_sort_details eqv g = Ok a /\
    match a with
    | Order l => topological eqv g l /\ acyclic eqv g
    | Circular rest => rest <> [] /\ forall x, among x rest <-> exists c, path eqv g c c /\ path eqv g c x
    end.
Proof.
  intros Dk. destruct (set_up_ok g Dk) as (D0 & C0 & A0).
  unfold topological_sort_details. set (t0 := set_up eqv g) in *.
  assert (IQ : forall y, among y (initial_queue t0) <-> among y (keys t0) /\ getc y t0 = 0).
  { intros y. unfold initial_queue. split.
    - intros (z & Hz & S). apply in_flat_map in Hz. destruct Hz as ([k c] & Hin & Hz). cbn in Hz.
      destruct (Z.eqb_spec c 0) as [->|]; [|destruct Hz]. destruct Hz as [->|[]].
      split; [exists z; split; [apply in_map_iff; exists (z, 0); tauto|exact S]|].
      unfold getc. rewrite (assoc_cong y z t0 S), (assoc_key t0 z 0 D0 Hin). reflexivity.
    - intros [A Z0]. unfold getc in Z0. destruct (assoc eqv y t0) as [[k c]|] eqn:E.
      + subst c. apply assoc_some in E. destruct E as [Hin S]. exists k; split; [|exact S].
        apply in_flat_map. exists (k, 0); split; [exact Hin|left; reflexivity].
      + apply assoc_none in E. tauto. }
  assert (DQ : distinct (initial_queue t0)).
  { clear C0 A0 IQ. clearbody t0. unfold initial_queue. induction t0 as [|[k c] t IH]; [exact Logic.I|].
    cbn [keys map fst TopoSpec.distinct] in D0. destruct D0 as [N D0]. cbn [flat_map snd fst].
    destruct (c =? 0); [|apply IH, D0]. cbn [app TopoSpec.distinct]. split; [|apply IH, D0].
    intros (z & Hz & S). apply N. apply in_flat_map in Hz. destruct Hz as ([k' c'] & Hin & Hz). cbn in Hz.
    destruct (c' =? 0); [|destruct Hz]. destruct Hz as [->|[]]. exists z; split; [apply in_map_iff; exists (z, c'); tauto|exact S]. }
  assert (I0 : Inv g t0 [] [] t0 (initial_queue t0) (initial_queue t0)).
  { split; auto.
    - intros y. rewrite C0, pend_nil, cnt_nil. lia.
    - rewrite app_nil_r. reflexivity.
    - intros x y (k & ts & Hin & Sk & Ay) A. apply IQ in A. destruct A as [_ Z0]. rewrite C0 in Z0.
      exfalso. revert Z0. apply cnt_pos. destruct Ay as (z & Hz & Sz). exists z; split; [|exact Sz].
      apply in_flat_map. exists (k, ts); tauto. }
  destruct (traverse_ok g t0 Dk (S (length t0)) [] t0 (initial_queue t0) (initial_queue t0)) as (t & R & D & E & I); [cbn [length]; lia|exact I0|].
  rewrite E; cbn [bind fst snd]. destruct I as [IK IC IZ ID IP IO]. cbn [app] in IP.
  assert (Dt : distinct (keys t)) by (rewrite IK; exact D0).
  assert (Gt : forall k c, In (k, c) t -> getc k t = c) by (intros k c Hin; unfold getc; rewrite (assoc_key t k c Dt Hin); reflexivity).
  assert (DR : distinct (rev R)) by (eapply distinct_perm; [apply Permutation_rev|exact ID]).
  assert (OR : forall x y, edge eqv g x y -> among y (rev R) -> before eqv (rev R) x y).
  { intros x y Hxy A; apply IO; [exact Hxy|apply among_rev, A]. }
  assert (Rest : forall x, among x (map fst (filter (fun e => negb (snd e =? 0)) t)) <-> among x (keys t) /\ getc x t <> 0).
  { intros x; split.
    - intros (z & Hz & S). apply in_map_iff in Hz. destruct Hz as ([k c] & Ek & Hin). cbn [fst] in Ek; subst z.
      apply filter_In in Hin. destruct Hin as [Hin Nz]. cbn [snd] in Nz. split; [exists k; split; [apply in_map_iff; exists (k, c); tauto|exact S]|].
      unfold getc. rewrite (assoc_cong x k t S), (assoc_key t k c Dt Hin). intros ->. discriminate.
    - intros [A Nz]. unfold getc in Nz. destruct (assoc eqv x t) as [[k c]|] eqn:Ea; [|tauto].
      apply assoc_some in Ea. destruct Ea as [Hin S]. exists k; split; [|exact S]. apply in_map_iff. exists (k, c); split; [reflexivity|].
      apply filter_In; split; [exact Hin|]. cbn [snd]. destruct (Z.eqb_spec c 0); [tauto|reflexivity]. }
  assert (NodeT : forall x, among x (keys t) <-> is_node eqv g x) by (intros x; rewrite IK; apply A0).
  assert (EdgeN : forall x y, edge eqv g x y -> is_node eqv g x /\ is_node eqv g y).
  { intros x y (k & ts & Hin & Sk & Ay). split; exists k, ts; tauto. }
  destruct (filter (fun e => negb (snd e =? 0)) t) as [|e0 rest] eqn:EF.
  - eexists; split; [reflexivity|].
    assert (All : forall x, is_node eqv g x <-> among x (rev R)).
    { intros x. rewrite among_rev, IZ, <- IK, NodeT. split; [|tauto]. intros Hn; split; [exact Hn|].
      apply NodeT in Hn. destruct (Z.eq_dec (getc x t) 0) as [|Nz]; [assumption|]. exfalso.
      destruct (proj2 (Rest x)) as (z & [] & _). split; assumption. }
    split.
    + split; [exact DR|]. split; [exact All|]. intros x y Hxy. apply OR; [exact Hxy|]. apply All, (EdgeN x y Hxy).
    + intros x Px. destruct (path_pos g (rev R) DR OR x x Px) as [_ L]; [|lia].
      apply All. clear - Px EdgeN. inversion Px; subst; apply (EdgeN x _ H).
  - eexists; split; [reflexivity|]. split; [discriminate|].
    set (L := map fst (e0 :: rest)) in *.
    assert (Pred : forall y, In y L -> exists z, In z L /\ edge eqv g z y).
    { intros y Hy. pose proof (proj1 (Rest y) (among_in _ _ Hy)) as [Ay Nz].
      rewrite IC, cnt_nil in Nz. assert (Nz' : cnt y (pend g D) <> 0) by lia.
      apply cnt_pos, pend_in in Nz'. destruct Nz' as (k & ts & Hin & ND & Ats).
      assert (NR : ~ among k R).
      { intros A. apply ND. eapply among_perm; [exact IP|exact A]. }
      assert (Kn : among k (keys t)) by (apply NodeT; exists k, ts; split; [exact Hin|left; apply s_refl]).
      assert (AL : among k L).
      { apply Rest. split; [exact Kn|]. intros Z0. apply NR, IZ. rewrite <- IK. tauto. }
      destruct AL as (z & Hz & Sz). exists z; split; [exact Hz|]. exists k, ts; split; [exact Hin|]. split; [apply s_sym, Sz|exact Ats]. }
    intros x; split.
    + intros (z & Hz & Sz). destruct (no_source_cycle g L z Hz Pred) as (c & Pc & Pz).
      exists c; split; [exact Pc|]. eapply path_cong; [exact Pz|apply s_sym, Sz].
    + intros (c & Pc & Px). apply Rest.
      assert (NRc : ~ among x (rev R)).
      { intros A. destruct (path_pos g (rev R) DR OR c x Px A) as [Ac _].
        destruct (path_pos g (rev R) DR OR c c Pc Ac) as [_ LL]. lia. }
      assert (Nx : is_node eqv g x).
      { clear - Px EdgeN. induction Px; [apply (EdgeN x y H)|assumption]. }
      split; [apply NodeT, Nx|]. intros Z0. apply NRc, among_rev, IZ. rewrite <- IK. split; [apply NodeT, Nx|exact Z0].
Qed.
End TP.
