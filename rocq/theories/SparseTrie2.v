(** Deletion, order of leaves, iteration, copying, clearing and checking of compact tries. *)
From Coq Require Import ZArith List Bool Arith Lia Permutation.
From Verif Require Import Outcome BitsModel BitsSpec BitsProofs BitsProofs3 SparseModel SparseNode SparseTrie.
Import ListNotations.
Local Open Scope Z_scope.
Ltac Zify.zify_post_hook ::= idtac.

Section Trie2.
Context {P : Type}.
Implicit Types (h : heap P).

Lemma leaves_empty : forall f, leaves (S f) (Node 0 0 []) = [].
Proof. intros. rewrite leaves_S. rewrite (flat_map_ext_in _ _ _ (fun _ => [])); [reflexivity|]. intros j _. unfold slot. cbn [emap]. now rewrite tb_0. Qed.
Lemma leaves_single : forall f n j, (j < 32)%nat -> (forall i, (i < 32)%nat -> i <> j -> slot n i = None) -> leaves (S f) n = sub f (slot n j).
Proof.
  intros f n j Hj H. rewrite leaves_S. assert (X : forall c s, (s + c <= 32)%nat -> flat_map (fun i => sub f (slot n i)) (seq s c) = if (s <=? j)%nat && (j <? s + c)%nat then sub f (slot n j) else []).
  { induction c as [|c IH]; intros s L; cbn [seq flat_map].
    - destruct (Nat.leb_spec s j), (Nat.ltb_spec j (s + 0)); auto; lia.
    - rewrite IH by lia. destruct (Nat.eqb_spec s j) as [->|N].
      + destruct (Nat.leb_spec (S j) j), (Nat.leb_spec j j), (Nat.ltb_spec j (j + S c)); cbn [andb]; try lia. apply app_nil_r.
      + rewrite (H s) by (auto; lia). cbn [sub app]. destruct (Nat.leb_spec (S s) j), (Nat.leb_spec s j), (Nat.ltb_spec j (S s + c)), (Nat.ltb_spec j (s + S c)); cbn [andb]; auto; lia. }
  rewrite X by lia. destruct (Nat.leb_spec 0 j), (Nat.ltb_spec j (0 + 32)); cbn [andb]; auto; lia.
Qed.
Lemma only_child : forall n i j, wn n -> cnt (emap n) 32 = 1%nat -> (i < 32)%nat -> (j < 32)%nat -> tb (emap n) j = true -> i <> j -> slot n i = None.
Proof.
  intros n i j W C Hi Hj T N. unfold slot. destruct (tb (emap n) i) eqn:Ti; auto. pose proof (cnt_lt _ _ _ Hi Ti). pose proof (cnt_lt _ _ _ Hj T). exfalso. apply N. apply (cnt_inj (emap n)); auto. lia.
Qed.
Lemma cnt_zero : forall w, w32 w -> cnt w 32 = 0%nat -> w = 0.
Proof. intros w W C. destruct (Z.eq_dec w 0); auto. destruct (w32_nonzero w W n) as (j & Hj & T). pose proof (cnt_lt w j 32 Hj T). lia. Qed.

Lemma del_rec_ok : forall f level p h num n key, (level + f = 13)%nat -> wf f level p h n -> ((0 < level)%nat -> ok1 n) -> agree level key p ->
  exists m num1 del, del_rec f h num n key level = Ok (m, num1, del) /\
    match del with
    | None => ~ present h (leaves f n) key /\ num1 = num /\ exists n1, m = ENode n1 /\ wf f level p h n1 /\ leaves f n1 = leaves f n /\ ((0 < level)%nat -> ok1 n1)
    | Some a => In a (leaves f n) /\ kat h a = Some key /\ num1 = (num - 1) mod 2 ^ 32 /\
      match m with
      | ENode n1 => wf f level p h n1 /\ Permutation (leaves f n) (a :: leaves f n1) /\ ((0 < level)%nat -> ok1 n1)
      | ELeaf b => (0 < level)%nat /\ Permutation (leaves f n) [a; b]
      | ENull => level = 0%nat /\ leaves f n = [a]
      end
    end.
Proof.
  induction f as [|f IH]; intros level p h num n key HL W O1 A; [destruct W|]. pose proof W as W0. destruct W as (W & Ne & S). cbn [del_rec].
  set (ind := key2index key level). assert (Hi : (ind < 32)%nat) by apply key2index_lt. rewrite has_arc_ok, is_leaf_ok by (auto; lia).
  assert (Other : forall a, In a (leaves (Datatypes.S f) n) -> kat h a = Some key -> In a (sub f (slot n ind))).
  { intros a Ha K. apply in_leaves in Ha. destruct Ha as (j & Hj & Ha). destruct (sub_index _ _ _ _ _ _ _ _ W0 Hj Ha K) as (_ & <-). exact Ha. }
  destruct (tb (emap n) ind) eqn:T.
  2:{ exists (ENode n), num, None. split; auto. split; [|split; eauto 10]. intros (b & Ib & Kb). specialize (Other b Ib Kb). unfold slot in Other. rewrite T in Other. destruct Other. }
  pose proof (S ind Hi T) as Si. destruct (tb (lmap n) ind) eqn:Tl; cbn [negb].
  - destruct Si as (a0 & k0 & E & K0 & Ak & X). rewrite (entry_slot n ind _ W Hi E). cbn [bind as_leaf]. destruct (kat_aget _ _ _ K0) as (l0 & -> & Hl0 & Ek). cbn [bind]. subst k0.
    destruct (Z.eqb_spec key (leaf_key l0)) as [Ek|Nk].
    2:{ exists (ENode n), num, None. split; auto. split; [|split; eauto 10]. intros (b & Ib & Kb). specialize (Other b Ib Kb). rewrite E in Other. destruct Other as [<-|[]]. congruence. }
    destruct (node_delete_ok n ind W Hi T) as (n1 & -> & En1 & Ln1 & Wn1 & Sn1). cbn [bind].
    assert (In0 : In a0 (leaves (Datatypes.S f) n)) by (apply in_leaves; exists ind; rewrite E; split; auto; now left).
    assert (Kk : kat h a0 = Some key) by congruence.
    destruct (leaves_change f n n1 ind Hi) as (B1 & B2 & X1 & X2). { intros j Hj. rewrite Sn1. destruct (Nat.eqb_spec j ind); [lia|auto]. }
    rewrite Sn1, Nat.eqb_refl in X2. rewrite E in X1. cbn [sub app] in X1, X2.
    pose proof (cnt_reset (emap n) ind 32 T ltac:(lia)) as C. destruct (Nat.ltb_spec ind 32); [|lia]. rewrite <- En1 in C.
    assert (Pm : Permutation (leaves (Datatypes.S f) n) (a0 :: leaves (Datatypes.S f) n1)) by (rewrite X1, X2; symmetry; apply Permutation_middle).
    assert (Keep : forall i, (i < 32)%nat -> tb (emap n1) i = true -> i <> ind /\ tb (emap n) i = true /\ tb (lmap n1) i = tb (lmap n) i).
    { intros i Hi' T'. rewrite En1, tb_reset in T' by lia. apply andb_true_iff in T'. destruct T' as (N & T'). apply negb_true_iff, Nat.eqb_neq in N. repeat split; auto. rewrite Ln1, tb_reset by lia. apply Nat.eqb_neq in N. now rewrite N. }
    destruct ((cnt (emap n) 32 - 1 =? 1)%nat && negb (lmap n1 =? 0) && (0 <? level)%nat) eqn:B.
    + apply andb_true_iff in B. destruct B as (B & B3). apply andb_true_iff in B. destruct B as (B4 & B2'). apply Nat.eqb_eq in B4. apply negb_true_iff, Z.eqb_neq in B2'. apply Nat.ltb_lt in B3.
      destruct (w32_nonzero _ (wn_l n1 Wn1) B2') as (j & Hj & Tj). pose proof (wn_sub n1 Wn1 j Tj) as Te. destruct (Keep j Hj Te) as (Nj & Tej & Lj). rewrite Tj in Lj.
      pose proof (S j Hj Tej) as Sj. rewrite <- Lj in Sj. destruct Sj as (b & kb & Eb & Kb & Ab & Xb).
      assert (Sb : slot n1 j = Some (ELeaf b)) by (rewrite Sn1; destruct (Nat.eqb_spec j ind); [lia|auto]).
      assert (Z0 : cnt (emap n1) j = 0%nat) by (pose proof (cnt_lt _ _ _ Hj Te); lia).
      assert (G0 : node_entry n1 0 = Ok (ELeaf b)). { unfold node_entry. apply aget_ok. unfold slot in Sb. rewrite Te, Z0 in Sb. exact Sb. }
      rewrite G0. cbn [bind]. exists (ELeaf b), ((num - 1) mod 2 ^ 32), (Some a0). split; auto. split; auto. split; auto. split; auto. split; auto.
      rewrite Pm. rewrite (leaves_single f n1 j Hj). { rewrite Sb. apply Permutation_refl. } intros i Hi' Ni. apply (only_child n1 i j); auto. lia.
    + destruct (Nat.eqb_spec (cnt (emap n) 32 - 1) 0) as [Z|NZ].
      * assert (Lv : level = 0%nat). { destruct level; auto. exfalso. apply (set_nonzero _ _ Tl). apply O1; lia. }
        rewrite Lv. cbn [assert Nat.eqb]. exists ENull, ((num - 1) mod 2 ^ 32), (Some a0). split; auto. repeat split; auto.
        rewrite (leaves_single f n ind Hi). { now rewrite E. } intros i Hi' Ni. apply (only_child n i ind); auto. lia.
      * exists (ENode n1), ((num - 1) mod 2 ^ 32), (Some a0). split; auto. split; auto. split; auto. split; auto. split; [split; auto; split|split; auto].
        { intros Z. rewrite Z in C. assert (cnt 0 32 = 0%nat) by (apply count_zero; intros; apply tb_0). lia. }
        { intros i Hi' T'. destruct (Keep i Hi' T') as (Ni & Te & ->). rewrite Sn1. destruct (Nat.eqb_spec i ind); [lia|]. exact (S i Hi' Te). }
        { intros Lv C1. destruct (Z.eq_dec (lmap n1) 0) as [|Nz]; auto. exfalso. apply Z.eqb_neq in Nz. rewrite Nz in B. destruct (Nat.eqb_spec (cnt (emap n) 32 - 1) 1); [|lia]. destruct (Nat.ltb_spec 0 level); [discriminate|lia]. }
  - destruct Si as (m0 & E & Wm0 & O0). rewrite (entry_slot n ind _ W Hi E). cbn [bind as_node].
    destruct (IH (Datatypes.S level) (ext p level ind) h num m0 key ltac:(lia) Wm0) as (m & num1 & del & -> & R); auto. { apply agree_ext_S; auto. } cbn [bind].
    assert (Upd : forall m', exists n1, node_entry_set n (node_index2off n ind) (ENode m') = Ok n1 /\ ok1 n1 /\ (exists B1 B2, leaves (Datatypes.S f) n = B1 ++ leaves f m0 ++ B2 /\ leaves (Datatypes.S f) n1 = B1 ++ leaves f m' ++ B2) /\
        (wf f (Datatypes.S level) (ext p level ind) h m' -> ok1 m' -> wf (Datatypes.S f) level p h n1)).
    { intros m'. destruct (entry_set_ok n ind (ENode m') W Hi T) as (n1 & -> & En1 & Ln1 & Wn1 & Sn1). exists n1. split; auto. split; [apply (ok1_of n1 ind); auto; congruence|]. split.
      - destruct (leaves_change f n n1 ind Hi) as (B1 & B2 & X1 & X2). { intros j Hj. rewrite Sn1. destruct (Nat.eqb_spec j ind); [lia|auto]. } rewrite Sn1, Nat.eqb_refl in X2. rewrite E in X1. cbn [sub] in X1, X2. eauto.
      - intros Wm' Om'. split; auto. split; [congruence|]. intros i Hi' T'. rewrite En1 in T'. rewrite Ln1, Sn1. destruct (Nat.eqb_spec i ind) as [->|Ni]; [rewrite Tl; eauto|exact (S i Hi' T')]. }
    destruct del as [a|].
    + destruct R as (Ia & Ka & -> & R). assert (In0 : In a (leaves (Datatypes.S f) n)) by (apply in_leaves; exists ind; rewrite E; split; auto).
      destruct m as [|b|m'].
      * destruct R as (C & _). discriminate.
      * destruct R as (_ & Pm). rewrite nchildren_ok by apply W.
        destruct (Nat.eqb_spec (cnt (emap n) 32) 1) as [C1|C1]; [destruct (Nat.ltb_spec 0 level)|]; cbn [andb].
        { exists (ELeaf b), ((num - 1) mod 2 ^ 32), (Some a). split; auto. repeat split; auto. rewrite <- Pm. rewrite (leaves_single f n ind Hi). { now rewrite E. } intros i Hi' Ni. apply (only_child n i ind); auto. }
        all: destruct (entry_set_ok n ind (ELeaf b) W Hi T) as (n1 & -> & En1 & Ln1 & Wn1 & Sn1); cbn [bind].
        all: exists (ENode (node_leaf_set n1 ind)), ((num - 1) mod 2 ^ 32), (Some a); split; auto; split; auto; split; auto; split; auto.
        all: assert (Wn2 : wn (node_leaf_set n1 ind)) by (constructor; cbn [node_leaf_set emap lmap ents]; try apply Wn1; [apply w32_set; auto; apply Wn1|intros j Tj; rewrite tb_set in Tj; apply orb_true_iff in Tj; destruct Tj as [Tj|Tj]; [apply Nat.eqb_eq in Tj; subst j; congruence|now apply (wn_sub _ Wn1)]]).
        all: assert (Hb : In b (leaves f m0)) by (eapply Permutation_in; [symmetry; exact Pm|right; now left]).
        all: destruct (leaves_keys _ _ _ _ _ _ Wm0 Hb) as (kb & Kb & Ab); apply agree_ext_S in Ab; auto; destruct Ab as (Ab & Xb).
        all: split; [split; auto; split; [cbn [node_leaf_set emap]; congruence|]|split].
        1,4: intros i Hi' T'; cbn [node_leaf_set emap lmap] in *; rewrite En1 in T'; change (slot (node_leaf_set n1 ind) i) with (slot n1 i); rewrite tb_set, Ln1, Sn1; destruct (Nat.eqb_spec i ind) as [->|Ni]; cbn [orb]; [eauto 10|exact (S i Hi' T')].
        1,3: destruct (leaves_change f n (node_leaf_set n1 ind) ind Hi) as (B1 & B2 & X1 & X2); [intros j Hj; change (slot (node_leaf_set n1 ind) j) with (slot n1 j); rewrite Sn1; destruct (Nat.eqb_spec j ind); [lia|auto]|];
          change (slot (node_leaf_set n1 ind) ind) with (slot n1 ind) in X2; rewrite Sn1, Nat.eqb_refl in X2; rewrite E in X1; cbn [sub] in X1, X2; rewrite X1, X2, Pm; cbn [app]; symmetry; apply Permutation_middle.
        { intros; lia. }
        { intros _ C2. cbn [node_leaf_set emap] in C2. rewrite En1 in C2. contradiction. }
      * destruct R as (Wm' & Pm & Om'). destruct (Upd m') as (n1 & -> & O1' & (B1 & B2 & X1 & X2) & Wf). cbn [bind].
        exists (ENode n1), ((num - 1) mod 2 ^ 32), (Some a). split; auto. split; auto. split; auto. split; auto. split; [apply Wf; auto; apply Om'; lia|]. split; auto.
        rewrite X1, X2, Pm. cbn [app]. symmetry. apply Permutation_middle.
    + destruct R as (Np & -> & m' & -> & Wm' & Lv & Om'). destruct (Upd m') as (n1 & -> & O1' & (B1 & B2 & X1 & X2) & Wf). cbn [bind].
      exists (ENode n1), num, None. split; auto. split. { intros (b & Ib & Kb). apply Np. exists b. specialize (Other b Ib Kb). rewrite E in Other. auto. }
      split; auto. exists n1. split; auto. split; [apply Wf; auto; apply Om'; lia|]. split; auto. now rewrite X1, X2, Lv.
Qed.

(** ** distinct leaves *)
Lemma leaves_nodup : forall f level p h n, wf f level p h n -> NoDup (leaves f n).
Proof.
  induction f as [|f IH]; intros level p h n W; [destruct W|]. rewrite leaves_S.
  assert (G : forall c s, (s + c <= 32)%nat -> NoDup (flat_map (fun i => sub f (slot n i)) (seq s c)) /\ forall a, In a (flat_map (fun i => sub f (slot n i)) (seq s c)) -> exists i, (s <= i < s + c)%nat /\ In a (sub f (slot n i))).
  { induction c as [|c IHc]; intros s L; cbn [seq flat_map]; [split; [constructor|intros a []]|]. destruct (IHc (S s) ltac:(lia)) as (N & I). split.
    - assert (Ns : NoDup (sub f (slot n s))).
      { destruct W as (Wn & _ & Sl). unfold sub. destruct (slot n s) as [e|] eqn:E; [|constructor]. specialize (Sl s ltac:(lia) (slot_arc _ _ _ E)). destruct (tb (lmap n) s).
        - destruct Sl as (a & k & E2 & _). rewrite E in E2. injection E2 as ->. repeat constructor. intros [].
        - destruct Sl as (m & E2 & Wm & _). rewrite E in E2. injection E2 as ->. eapply IH; eauto. }
      assert (Dj : forall a, In a (sub f (slot n s)) -> ~ In a (flat_map (fun i => sub f (slot n i)) (seq (S s) c))).
      { intros a Ha Hb. apply I in Hb. destruct Hb as (i & Hi & Hb). assert (Hl : In a (leaves (S f) n)) by (apply in_leaves; exists s; split; auto; lia).
        destruct (leaves_keys _ _ _ _ _ _ W Hl) as (k & K & _). assert (Hs32 : (s < 32)%nat) by lia. assert (Hi32 : (i < 32)%nat) by lia. destruct (sub_index _ _ _ _ _ _ _ _ W Hs32 Ha K) as (_ & X1). destruct (sub_index _ _ _ _ _ _ _ _ W Hi32 Hb K) as (_ & X2). lia. }
      clear - Ns N Dj. induction (sub f (slot n s)) as [|x l IHl]; cbn [app]; auto. inversion_clear Ns. constructor.
      + rewrite in_app_iff. intros [Hx|Hx]; [contradiction|]. apply (Dj x); auto. now left.
      + apply IHl; auto. intros a Ha. apply Dj. now right.
    - intros a Ha. apply in_app_iff in Ha. destruct Ha as [Ha|Ha]; [exists s; split; auto; lia|]. destruct (I a Ha) as (i & Hi & Hb). exists i. split; auto. lia. }
  apply G. lia.
Qed.
Lemma leaves_key_inj : forall f level p h n a b k, (level + f = 13)%nat -> wf f level p h n -> In a (leaves f n) -> In b (leaves f n) -> kat h a = Some k -> kat h b = Some k -> a = b.
Proof.
  induction f as [|f IH]; intros level p h n a b k HL W Ia Ib Ka Kb; [destruct W|]. apply in_leaves in Ia, Ib. destruct Ia as (i & Hi & Ia), Ib as (j & Hj & Ib).
  destruct (sub_index _ _ _ _ _ _ _ _ W Hi Ia Ka) as (_ & X1). destruct (sub_index _ _ _ _ _ _ _ _ W Hj Ib Kb) as (_ & X2). rewrite X1 in X2. subst j. destruct W as (Wn & _ & Sl). unfold sub in Ia, Ib. destruct (slot n i) as [e|] eqn:E; [|destruct Ia].
  specialize (Sl i Hi (slot_arc _ _ _ E)). destruct (tb (lmap n) i).
  - destruct Sl as (c & k' & E2 & _). rewrite E in E2. injection E2 as ->. destruct Ia as [<-|[]], Ib as [<-|[]]. auto.
  - destruct Sl as (m & E2 & Wm & _). rewrite E in E2. injection E2 as ->. eapply (IH (S level)); eauto. lia.
Qed.
Lemma leaves_nonempty : forall f level p h n, wf f level p h n -> leaves f n <> [].
Proof.
  induction f as [|f IH]; intros level p h n W; [destruct W|]. destruct W as (Wn & Ne & Sl). destruct (w32_nonzero _ (wn_e n Wn) Ne) as (i & Hi & T). specialize (Sl i Hi T).
  destruct (leaves_change f n n i Hi) as (B1 & B2 & -> & _); auto. destruct (tb (lmap n) i).
  - destruct Sl as (a & k & -> & _). cbn [sub]. intros C. apply app_eq_nil in C. destruct C as (_ & C). discriminate.
  - destruct Sl as (m & -> & Wm & _). cbn [sub]. intros C. apply app_eq_nil in C. destruct C as (_ & C). apply app_eq_nil in C. destruct C as (C & _). now apply IH in Wm.
Qed.
End Trie2.
