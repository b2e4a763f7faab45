From Coq Require Import List Bool ZArith Lia.
From Verif Require Import Outcome SkewModel SkewSpec SkewProofs SkewProofs2.
Import ListNotations.
Local Open Scope Z_scope.
Ltac Zify.zify_post_hook ::= idtac.

Section P.
Context {A : Type}.
Implicit Types (t : stree A) (sl : skew A).

Lemma trivial_prefix_cases sl : wf sl -> forall k sum i,
  (exists j, trivial_prefix sl k sum i = Ok (Some (i + j)%nat) /\ (j <= length sl)%nat /\ k = sum + Z.of_nat (length (contents (firstn j sl)))) \/
  (trivial_prefix sl k sum i = Ok None /\ k < sum + Z.of_nat (length (contents sl)) /\ forall j, k <> sum + Z.of_nat (length (contents (firstn j sl)))) \/
  (trivial_prefix sl k sum i = Err /\ sum + Z.of_nat (length (contents sl)) < k).
Proof.
  induction sl as [|[w t] sl IH]; intros W k sum i; cbn [trivial_prefix].
  - destruct (k =? sum) eqn:E; [apply Z.eqb_eq in E|apply Z.eqb_neq in E].
    + left. exists 0%nat. rewrite Nat.add_0_r. split; [reflexivity|]. cbn. split; lia.
    + destruct (sum <? k) eqn:E2; [apply Z.ltb_lt in E2|apply Z.ltb_ge in E2].
      * right. right. split; [reflexivity|]. cbn. lia.
      * right. left. split; [reflexivity|]. split; [cbn; lia|]. intros j. rewrite firstn_nil. cbn. lia.
  - pose proof (Forall_inv W) as H. cbn [fst snd] in H. pose proof (elems_length _ _ H) as Le. pose proof (complete_pos _ _ H).
    destruct (k =? sum) eqn:E; [apply Z.eqb_eq in E|apply Z.eqb_neq in E].
    + left. exists 0%nat. rewrite Nat.add_0_r. split; [reflexivity|]. cbn. split; lia.
    + rewrite contents_cons, app_length. destruct (sum <? k) eqn:E2; [apply Z.ltb_lt in E2|apply Z.ltb_ge in E2].
      * destruct (IH (Forall_inv_tail W) k (sum + w) (S i)) as [(j & -> & Lj & Q)|[(-> & Lk & Q)|(-> & Lk)]].
        -- left. exists (S j). replace (i + S j)%nat with (S i + j)%nat by lia. split; [reflexivity|]. cbn [length firstn]. split; [lia|].
           rewrite contents_cons, app_length. lia.
        -- right. left. split; [reflexivity|]. split; [lia|]. intros [|j]; [cbn; lia|]. cbn [firstn]. rewrite contents_cons, app_length.
           specialize (Q j). lia.
        -- right. right. split; [reflexivity|]. lia.
      * right. left. split; [reflexivity|]. split; [lia|]. intros j. lia.
Qed.

Lemma canonical_firstn sl j : canonical sl -> canonical (firstn j sl).
Proof.
  intros [W I]. split.
  - apply Forall_forall. intros x Hx. unfold wf in W. rewrite Forall_forall in W. apply W. rewrite <- (firstn_skipn j sl). apply in_or_app; auto.
  - rewrite <- firstn_map. generalize dependent (map fst sl). intros l I.
    destruct l as [|a [|b r]]; destruct j as [|[|j]]; cbn [firstn]; auto. destruct I as [I1 I2]. split; auto.
    change (b :: firstn j r) with (firstn (S j) (b :: r)). clear I1. generalize dependent (b :: r). clear. intros l I. generalize (S j). clear j.
    induction l as [|a l IH]; intros [|[|j]]; cbn [firstn]; try exact Logic.I; destruct l as [|b l]; auto.
    destruct I as [Ia Ib]. split; auto. exact (IH Ib (S j)).
Qed.
Lemma canonical_skipn sl : forall j, canonical sl -> canonical (skipn j sl).
Proof.
  induction sl as [|p sl IH]; intros [|j] C; auto. cbn [skipn]. apply IH. destruct (canonical_tail _ _ C). apply increasing_canonical; auto.
Qed.

(** [a] and [b] are the two parts of [sl] *)
Definition parts sl (k : Z) (a b : skew A) : Prop :=
  canonical a /\ canonical b /\ contents a ++ contents b = contents sl /\ Z.of_nat (length (contents a)) = k.
Lemma parts_holds sl k a b l : parts sl (Z.of_nat k) a b -> contents sl = l -> holds a (firstn k l) /\ holds b (skipn k l).
Proof.
  intros (Ca & Cb & Q & L) E. assert (length (contents a) = k) as L' by lia. rewrite <- E, <- Q, <- L'. split; split; auto.
  - rewrite firstn_app, Nat.sub_diag, firstn_all2 by lia. cbn. rewrite app_nil_r. reflexivity.
  - rewrite skipn_app, Nat.sub_diag, skipn_all2 by lia. reflexivity.
Qed.

Ltac len := rewrite ?contents_cons, ?app_length; cbn [contents elems length app map concat fst snd] in *; try lia.

Ltac brk := repeat match goal with
  | H : exists v, _ = 2 * v + 1 /\ _ |- _ => destruct H as (? & -> & ? & ?)
  end.
Ltac canon := split; [unfold wf; repeat (constructor; [cbn [fst snd complete]; auto; try (eexists; split; [reflexivity|]; split; assumption)|]); auto; try constructor|cbn [map fst increasing]; try exact Logic.I; try tauto; try lia].

Lemma special_prefix_ok sl k : canonical sl -> ~ starts_1_1 sl -> (forall j, k <> Z.of_nat (length (contents (firstn j sl)))) ->
  0 < k < Z.of_nat (length (contents sl)) ->
  special_prefix sl k = Ok None \/ exists a b, special_prefix sl k = Ok (Some (a, b)) /\ parts sl k a b.
Proof.
  intros C N B K. assert (Cn := C). destruct C as [W I].
  destruct sl as [|[w t] sl]; [cbn in K; lia|].
  pose proof (Forall_inv W) as H. pose proof (Forall_inv_tail W) as W'. cbn [fst snd] in H.
  destruct (canonical_tail _ _ Cn) as [_ Ic].
  destruct t as [x|x t1 t2].
  - (* a leaf first *)
    cbn [complete] in H. subst w. destruct sl as [|[n [y|y t1 t2]] zs].
    + cbn in K. lia.
    + exfalso. apply N. pose proof (Forall_inv W') as H2. cbn in H2. subst n. do 3 eexists. reflexivity.
    + pose proof (Forall_inv W') as H2. pose proof (Forall_inv_tail W') as W2. cbn [fst snd complete] in H2.
      destruct H2 as (v & -> & H1 & H2). pose proof (complete_pos _ _ H1) as P1. pose proof (elems_length _ _ H1) as L1.
      unfold special_prefix. change (1 =? 1) with true. cbv iota beta zeta. rewrite half_odd.
      cbn [map fst increasing] in Ic.
      assert (forall b r, map fst zs = b :: r -> 2 * v + 1 < b /\ increasing (b :: r)) as Iz.
      { intros b r Eb. rewrite Eb in Ic. destruct Ic; auto. }
      assert (canonical ((v, t2) :: zs)) as Cz.
      { split; [constructor; auto|]. cbn [map fst]. destruct (map fst zs) as [|b r]; auto. destruct (Iz _ _ eq_refl). split; [lia|auto]. }
      destruct (k =? 2) eqn:E2.
      * apply Z.eqb_eq in E2. subst k. right. do 2 eexists. split; [reflexivity|]. split; [|split; [|split]].
        -- canon.
        -- split; [constructor; [exact H1|exact (proj1 Cz)]|]. cbn [map fst]. split; [lia|].
           destruct (map fst zs) as [|b r]; [exact Logic.I|]. destruct (Iz _ _ eq_refl). split; [lia|auto].
        -- rewrite !contents_cons. cbn. rewrite <- !app_assoc. reflexivity.
        -- reflexivity.
      * destruct ((3 <? 2 * v + 1) && (k =? 2 + v)) eqn:E3; [|left; reflexivity].
        apply andb_true_iff in E3. destruct E3 as [E3 E4]. apply Z.ltb_lt in E3. apply Z.eqb_eq in E4. subst k.
        right. do 2 eexists. split; [reflexivity|]. split; [|split; [|split]].
        -- canon.
        -- exact Cz.
        -- rewrite !contents_cons. cbn. rewrite <- !app_assoc. reflexivity.
        -- rewrite !contents_cons, !app_length. cbn [contents map concat elems length]. lia.
  - (* a node first *)
    cbn [complete] in H. destruct H as (v & -> & H1 & H2). pose proof (complete_pos _ _ H1) as P1.
    pose proof (elems_length _ _ H1) as L1. pose proof (elems_length _ _ H2) as L2.
    assert (special_prefix ((2 * v + 1, Node x t1 t2) :: sl) k =
      match t1 with
      | Node y t11 t12 =>
        if k =? 1 then Ok (Some ([(1, Leaf x)], (v, t1) :: (v, t2) :: sl))
        else if k =? 2 then Ok (Some ([(1, Leaf x); (1, Leaf y)], (quarter (2 * v + 1), t11) :: (quarter (2 * v + 1), t12) :: (v, t2) :: sl))
        else if k =? 1 + v then Ok (Some ([(1, Leaf x); (v, t1)], (v, t2) :: sl))
        else if (3 <? k) && (k =? 2 + quarter (2 * v + 1))
             then Ok (Some ([(1, Leaf x); (1, Leaf y); (quarter (2 * v + 1), t11)], (quarter (2 * v + 1), t12) :: (v, t2) :: sl))
        else Ok None
      | Leaf y =>
        if k =? 1 then Ok (Some ([(1, Leaf x)], (1, Leaf y) :: (v, t2) :: sl))
        else if k =? 2 then Ok (Some ([(1, Leaf x); (1, Leaf y)], (v, t2) :: sl))
        else Ok None
      end) as Ex.
    { unfold special_prefix. rewrite half_odd. cbv beta zeta.
      assert ((2 * v + 1 =? 1) = false) as -> by (apply Z.eqb_neq; lia).
      destruct sl as [|[n [y|y u1 u2]] zs]; destruct t1; reflexivity. }
    rewrite Ex. clear Ex.
    assert (forall b r, map fst sl = b :: r -> 2 * v + 1 <= b /\ increasing (b :: r)) as Iz.
    { intros b r Eb. cbn [map fst] in I. rewrite Eb in I. exact I. }
    assert (canonical ((v, t2) :: sl)) as Cz.
    { split; [constructor; auto|]. cbn [map fst]. destruct (map fst sl) as [|b r]; auto. destruct (Iz _ _ eq_refl). split; [lia|auto]. }
    assert (increasing (map fst ((v, t2) :: sl))) as Iv.
    { cbn [map fst]. destruct (map fst sl) as [|b r]; [exact Logic.I|]. destruct (Iz _ _ eq_refl). split; [lia|auto]. }
    assert (canonical ((v, t1) :: (v, t2) :: sl)) as Cv.
    { split; [constructor; [exact H1|exact (proj1 Cz)]|]. cbn [map fst]. split; [lia|]. exact Iv. }
    destruct t1 as [y|y t11 t12].
    + assert (v = 1) by exact H1. subst v. destruct (k =? 1) eqn:E1; [|destruct (k =? 2) eqn:E2; [|left; reflexivity]].
      * apply Z.eqb_eq in E1. subst k. right. do 2 eexists. split; [reflexivity|]. split; [canon|]. split; [exact Cv|].
        split; [|reflexivity]. rewrite !contents_cons. cbn. reflexivity.
      * apply Z.eqb_eq in E2. subst k. right. do 2 eexists. split; [reflexivity|]. split; [canon|]. split; [exact Cz|].
        split; [|reflexivity]. rewrite !contents_cons. cbn. reflexivity.
    + cbn [complete] in H1. destruct H1 as (u & -> & H11 & H12). pose proof (complete_pos _ _ H11) as P2.
      pose proof (elems_length _ _ H11) as L11. pose proof (elems_length _ _ H12) as L12.
      assert (quarter (2 * (2 * u + 1) + 1) = u) as ->.
      { unfold quarter. replace (2 * (2 * u + 1) + 1) with (3 + u * 4) by lia. rewrite Z.div_add by lia. reflexivity. }
      assert (complete (2 * u + 1) (Node y t11 t12)) as H1 by (exists u; auto).
      destruct (k =? 1) eqn:E1; [|destruct (k =? 2) eqn:E2; [|destruct (k =? 1 + (2 * u + 1)) eqn:E3; [|destruct ((3 <? k) && (k =? 2 + u)) eqn:E4; [|left; reflexivity]]]].
      * apply Z.eqb_eq in E1. subst k. right. do 2 eexists. split; [reflexivity|]. split; [canon|]. split; [exact Cv|].
        split; [|reflexivity]. rewrite !contents_cons. cbn. rewrite <- !app_assoc. reflexivity.
      * apply Z.eqb_eq in E2. subst k. right. do 2 eexists. split; [reflexivity|]. split; [canon|]. split.
        { split; [constructor; [exact H11|constructor; [exact H12|exact (proj1 Cz)]]|]. cbn [map fst]. split; [lia|].
          change (u < 2 * u + 1 /\ increasing (map fst ((2 * u + 1, t2) :: sl))). split; [lia|exact Iv]. }
        split; [|reflexivity]. rewrite !contents_cons. cbn. rewrite <- !app_assoc. reflexivity.
      * apply Z.eqb_eq in E3. subst k. right. do 2 eexists. split; [reflexivity|]. split; [canon|]. split; [exact Cz|].
        split.
        -- rewrite !contents_cons. cbn. rewrite <- !app_assoc. reflexivity.
        -- rewrite !contents_cons, !app_length, L1 || rewrite !contents_cons, !app_length. cbn [contents map concat elems length] in *. rewrite app_length in *. lia.
      * apply andb_true_iff in E4. destruct E4 as [E4 E5]. apply Z.ltb_lt in E4. apply Z.eqb_eq in E5. subst k.
        right. do 2 eexists. split; [reflexivity|]. split; [canon|]. split.
        { split; [constructor; [exact H12|exact (proj1 Cz)]|]. cbn [map fst]. change (u <= 2 * u + 1 /\ increasing (map fst ((2 * u + 1, t2) :: sl))). split; [lia|exact Iv]. }
        split.
        -- rewrite !contents_cons. cbn. rewrite <- !app_assoc. reflexivity.
        -- rewrite !contents_cons, !app_length. cbn [contents map concat elems length]. lia.
Qed.

Lemma special_prefix_bad sl k : starts_1_1 sl -> special_prefix sl k = Err.
Proof. intros (x & y & r & ->). reflexivity. Qed.
Definition asked (ret : rettype) (sl : skew A) (k : nat) (r : skew A * skew A) : Prop :=
  (ret <> Drop -> holds (fst r) (firstn k (contents sl))) /\ (ret <> Take -> holds (snd r) (skipn k (contents sl))).

Lemma splitter_ok sl k ret : canonical sl -> (k <= length (contents sl))%nat ->
  on_boundary sl k \/ ~ starts_1_1 sl ->
  exists r, splitter sl (Z.of_nat k) ret = Ok r /\ asked ret sl k r.
Proof.
  intros C L D. unfold splitter. destruct (trivial_prefix_cases sl (proj1 C) (Z.of_nat k) 0 0) as [(j & -> & Lj & Q)|[(-> & Lk & Q)|(-> & Lk)]].
  - cbn [bind Nat.add]. eexists. split; [reflexivity|]. destruct (parts_holds sl k (firstn j sl) (skipn j sl) _ ltac:(repeat split; [apply canonical_firstn; auto|apply canonical_firstn; auto|apply canonical_skipn; auto|apply canonical_skipn; auto|rewrite <- contents_app, firstn_skipn; reflexivity|lia]) eq_refl). split; auto.
  - cbn [bind]. destruct D as [[j D]|D]; [exfalso; apply (Q j); lia|].
    assert (0 < k)%nat by (specialize (Q 0%nat); cbn in Q; lia).
    destruct (special_prefix_ok sl (Z.of_nat k) C D) as [->|(a & b & -> & P)]; [intros j; specialize (Q j); lia|lia| |].
    + cbn [bind]. destruct ret.
      * change 0 with (Z.of_nat 0) at 1. rewrite (skew_to_lseq_ok sl 0 k (proj1 C)) by lia. cbn [bind]. destruct (list_to_skew_ok (sublist (contents sl) 0 k)) as (s & -> & Hs).
        cbn [bind]. eexists. split; [reflexivity|]. split; [|congruence]. intros _. unfold sublist in Hs. rewrite Nat.sub_0_r in Hs. exact Hs.
      * rewrite skew_to_lseq_default by exact (proj1 C). rewrite (skew_to_lseq_ok sl k _ (proj1 C)) by lia. cbn [bind].
        destruct (list_to_skew_ok (sublist (contents sl) k (length (contents sl)))) as (s & -> & Hs).
        cbn [bind]. eexists. split; [reflexivity|]. split; [congruence|]. intros _. cbn [snd]. unfold sublist in Hs. rewrite firstn_all2 in Hs by (rewrite skipn_length; lia). exact Hs.
      * cbv zeta. rewrite skew_to_list_ok. destruct ((Z.of_nat k <? 0) || (Z.of_nat (length (contents sl)) <? Z.of_nat k)) eqn:E.
        { apply orb_true_iff in E. rewrite !Z.ltb_lt in E. lia. }
        rewrite Nat2Z.id. destruct (list_to_skew_ok (firstn k (contents sl))) as (s & -> & Hs). cbn [bind].
        destruct (list_to_skew_ok (skipn k (contents sl))) as (s' & -> & Hs'). cbn [bind]. eexists. split; [reflexivity|]. split; auto.
    + cbn [bind]. eexists. split; [reflexivity|]. destruct (parts_holds _ _ _ _ _ P eq_refl). split; auto.
  - exfalso. lia.
Qed.
Lemma splitter_bad sl k ret : wf sl -> starts_1_1 sl -> ~ on_boundary sl k -> splitter sl (Z.of_nat k) ret = Err.
Proof.
  intros W S N. unfold splitter. destruct (trivial_prefix_cases sl W (Z.of_nat k) 0 0) as [(j & -> & Lj & Q)|[(-> & Lk & Q)|(-> & Lk)]].
  - exfalso. apply N. exists j. lia.
  - cbn [bind]. rewrite special_prefix_bad by exact S. reflexivity.
  - reflexivity.
Qed.
Lemma splitter_out sl k ret : wf sl -> k < 0 \/ Z.of_nat (length (contents sl)) < k -> splitter sl k ret = Err.
Proof.
  intros W K. unfold splitter. destruct (trivial_prefix_cases sl W k 0 0) as [(j & -> & Lj & Q)|[(-> & Lk & Q)|(-> & Lk)]].
  - exfalso. assert (length (contents (firstn j sl)) <= length (contents sl))%nat.
    { rewrite <- (firstn_skipn j sl) at 2. rewrite contents_app, app_length. lia. } lia.
  - cbn [bind]. assert (k < 0) by lia.
    assert (special_prefix sl k = Err \/ special_prefix sl k = Ok None) as [->| ->]; [|reflexivity|].
    { assert ((k =? 1) = false) as E1 by (apply Z.eqb_neq; lia). assert ((k =? 2) = false) as E2 by (apply Z.eqb_neq; lia).
      assert ((3 <? k) = false) as E3 by (apply Z.ltb_ge; lia).
      unfold special_prefix. destruct sl as [|[w t] sl]; [left; reflexivity|].
      assert (forall (u : stree A) n, complete n u -> (k =? 1 + half n) = false /\ (k =? 2 + half n) = false) as G.
      { intros u n Hn. apply complete_pos in Hn. unfold half. pose proof (Z.div_pos n 2). split; apply Z.eqb_neq; lia. }
      pose proof (Forall_inv W) as Hw. cbn [fst snd] in Hw. destruct (G _ _ Hw) as [G1 G2].
      cbv zeta. destruct sl as [|[n u] zs].
      - destruct t as [x|x [y|y t11 t12] t2]; rewrite ?E1, ?E2, ?E3, ?G1; cbn [andb]; auto.
      - pose proof (Forall_inv (Forall_inv_tail W)) as Hn. cbn [fst snd] in Hn. destruct (G _ _ Hn) as [G3 G4].
        destruct u; destruct (w =? 1); destruct t as [x0|x0 [y0|y0 t11 t12] t3]; rewrite ?E1, ?E2, ?E3, ?G1, ?G4, ?andb_false_r; cbn [andb]; auto. }
    destruct ret.
    + unfold skew_to_lseq. destruct (0 <=? k) eqn:E; [apply Z.leb_le in E; lia|]. reflexivity.
    + unfold skew_to_lseq. rewrite skew_length_ok by exact W. destruct (k <=? _) eqn:E; [|reflexivity]. apply Z.leb_le in E. cbn [negb].
      destruct (0 <? k) eqn:E2; [apply Z.ltb_lt in E2; lia|]. rewrite iter_all_ok by lia. unfold pending. cbn [map concat app].
      destruct (Z.of_nat _ <? Z.of_nat _ - k) eqn:E3; [reflexivity|apply Z.ltb_ge in E3; lia].
    + cbv zeta. destruct (k <? 0) eqn:E; [reflexivity|apply Z.ltb_ge in E; lia].
  - reflexivity.
Qed.

(** append *)
Lemma slow_append_ok sl sl' : exists s, slow_append sl sl' = Ok s /\ holds s (contents sl ++ contents sl').
Proof. unfold slow_append. rewrite !skew_to_list_ok. apply list_to_skew_ok. Qed.
Lemma skew_cons_wf x sl : wf sl -> wf (skew_cons x sl) /\ contents (skew_cons x sl) = x :: contents sl.
Proof.
  intros W. unfold skew_cons. destruct sl as [|[w1 t1] [|[w2 t2] ts]].
  - split; [repeat constructor|reflexivity].
  - split; [constructor; [reflexivity|exact W]|reflexivity].
  - destruct (w1 =? w2) eqn:E; [|split; [constructor; [reflexivity|exact W]|reflexivity]].
    apply Z.eqb_eq in E. subst w2. pose proof (Forall_inv W) as W1. pose proof (Forall_inv_tail W) as W'.
    pose proof (Forall_inv W') as W2. pose proof (Forall_inv_tail W') as W3. cbn [fst snd] in *. split.
    + constructor; [|exact W3]. exists w1. cbn [fst snd]. repeat split; auto. lia.
    + rewrite !contents_cons. cbn. rewrite <- app_assoc. reflexivity.
Qed.
Lemma skew_append2_ok sl sl' : wf sl -> wf sl' -> sl' <> [] -> sl <> [] ->
  exists s, skew_append2 sl sl' = Ok s /\ wf s /\ contents s = contents sl ++ contents sl'.
Proof.
  intros W C N N'. destruct sl' as [|[w1 t1] ts]; [congruence|]. destruct sl as [|[w0 t0] sl]; [congruence|].
  destruct (slow_append_ok ((w0, t0) :: sl) ((w1, t1) :: ts)) as (s & Es & Hs).
  assert (exists s0, slow_append ((w0, t0) :: sl) ((w1, t1) :: ts) = Ok s0 /\ wf s0 /\ contents s0 = contents ((w0, t0) :: sl) ++ contents ((w1, t1) :: ts)) as Slow.
  { exists s. split; auto. destruct Hs as [[? ?] ?]. auto. }
  assert (exists s0, Ok (((w0, t0) :: sl) ++ ((w1, t1) :: ts)) = Ok s0 /\ wf s0 /\ contents s0 = contents ((w0, t0) :: sl) ++ contents ((w1, t1) :: ts)) as Fast.
  { eexists. split; [reflexivity|]. split; [|apply contents_app]. apply Forall_app. split; [exact W|exact C]. }
  unfold skew_append2. destruct sl as [|p sl].
  - destruct t0 as [x|x ta tb].
    + destruct (w0 =? 1).
      * eexists. split; [reflexivity|]. exact (skew_cons_wf x _ C).
      * destruct (w0 =? w1); auto.
    + destruct (w0 =? w1); auto.
  - destruct t0; (destruct (_ <? w1); [exact Fast|exact Slow]).
Qed.
Lemma skew_append2_nil sl : wf sl -> (length (contents sl) <> 1)%nat -> skew_append2 sl [] = Err.
Proof.
  intros W L. destruct sl as [|[w [x|x t1 t2]] [|p r]]; try reflexivity. cbn in L. lia.
Qed.
Lemma skew_append2_single sl sl' x : wf sl -> contents sl = [x] -> skew_append2 sl sl' = Ok (skew_cons x sl').
Proof.
  intros W C. destruct sl as [|[w t] sl]; [discriminate|]. rewrite contents_cons in C.
  destruct t as [y|y t1 t2].
  - cbn in C. injection C as -> C. rewrite (skew_nil_inv _ C). pose proof (Forall_inv W) as H. cbn in H. subst w. reflexivity.
  - cbn in C. injection C as _ C. apply app_eq_nil in C. destruct C as [C _]. apply app_eq_nil in C. destruct C as [C _].
    destruct t1; discriminate.
Qed.
Lemma contents_nonempty sl : sl <> [] -> contents sl <> [].
Proof. intros N E. apply N, skew_nil_inv, E. Qed.
Lemma skew_append_spec : forall sls sl, wf sl -> Forall wf sls ->
  (exists s, skew_append sl sls = Ok s /\ wf s /\ contents s = concat (map contents (sl :: sls))) \/
  (skew_append sl sls = Err /\ exists a b c, sl :: sls = a ++ b :: c /\ (2 <= length (contents b))%nat /\ c <> [] /\ Forall (fun s => s = []) c).
Proof.
  induction sls as [|s r IH]; intros sl W F; cbn [skew_append].
  - left. exists sl. split; [reflexivity|]. split; [exact W|]. cbn [map concat]. rewrite app_nil_r. reflexivity.
  - destruct (IH s (Forall_inv F) (Forall_inv_tail F)) as [(u & E & Wu & Q)|(E & a & b & c & Es & Lb & Nc & Fc)].
    + destruct sl as [|p sl]; [left; exists u; cbn [map concat] in *; auto|]. rewrite E. cbn [bind].
      destruct u as [|q u].
      * destruct (Nat.eq_dec (length (contents (p :: sl))) 1) as [L1|L1].
        -- destruct (contents (p :: sl)) as [|x [|]] eqn:Ec; try (cbn in L1; lia). rewrite (skew_append2_single _ _ _ W Ec).
           left. eexists. split; [reflexivity|]. split; [apply skew_cons_wf; constructor|]. cbn [map concat] in *. rewrite <- Q, Ec. reflexivity.
        -- rewrite skew_append2_nil by auto. right. split; [reflexivity|]. exists [], (p :: sl), (s :: r).
           split; [reflexivity|]. split.
           ++ pose proof (contents_nonempty (p :: sl) ltac:(congruence)). destruct (contents (p :: sl)) as [|? [|]]; cbn in L1 |- *; [congruence|lia|lia].
           ++ split; [congruence|]. change (concat (map contents (s :: r)) = []) with (concat (map contents (s :: r)) = []) in Q.
              symmetry in Q. cbn [contents map concat] in Q. clear - Q. apply Forall_forall. intros z Hz. apply skew_nil_inv.
              assert (forall (ls : list (skew A)), concat (map contents ls) = [] -> forall z, In z ls -> contents z = []) as G.
              { induction ls as [|l ls IH]; intros E z' [].
                - subst. cbn in E. apply app_eq_nil in E. tauto.
                - cbn in E. apply app_eq_nil in E. apply IH; tauto. }
              exact (G (s :: r) Q z Hz).
      * destruct (skew_append2_ok (p :: sl) (q :: u) W Wu ltac:(congruence) ltac:(congruence)) as (v & -> & Wv & Qv).
        left. exists v. split; [reflexivity|]. split; [exact Wv|]. cbn [map concat] in *. rewrite Qv, <- Q. reflexivity.
    + right. split; [destruct sl; rewrite E; reflexivity|]. exists (sl :: a), b, c. rewrite Es. auto.
Qed.
End P.
