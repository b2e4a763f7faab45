(** The compact trie as a set of leaves with distinct keys: invariant, search, insertion, deletion. *)
From Coq Require Import ZArith List Bool Arith Lia Permutation.
From Verif Require Import Outcome BitsModel BitsSpec BitsProofs BitsProofs3 SparseModel SparseNode.
Import ListNotations.
Local Open Scope Z_scope.
Ltac Zify.zify_post_hook ::= idtac.

(** ** digits of keys *)
Definition pw (l : nat) : Z := 2 ^ (5 * Z.of_nat l).
Definition agree (l : nat) (a b : Z) : Prop := a mod pw l = b mod pw l.
Definition ext (p : Z) (l i : nat) : Z := p mod pw l + pw l * Z.of_nat i.
Definition u64 (k : Z) : Prop := 0 <= k < 2 ^ 64.
Lemma pw_pos : forall l, 0 < pw l. Proof. intros. apply Z.pow_pos_nonneg; lia. Qed.
Lemma pw_S : forall l, pw (S l) = pw l * 32.
Proof. intros. unfold pw. rewrite Nat2Z.inj_succ. replace (5 * Z.succ (Z.of_nat l)) with (5 * Z.of_nat l + 5) by lia. rewrite Z.pow_add_r by lia. reflexivity. Qed.
Lemma key2index_div : forall k l, key2index k l = Z.to_nat ((k / pw l) mod 32).
Proof. intros. unfold key2index, TRIE_SHIFT, TRIE_MASK. rewrite Z.shiftr_div_pow2 by lia. change 31 with (Z.ones 5). rewrite Z.land_ones by lia. unfold pw. now replace (Z.of_nat l * 5) with (5 * Z.of_nat l) by lia. Qed.
Lemma key2index_lt : forall k l, (key2index k l < 32)%nat.
Proof. intros. rewrite key2index_div. pose proof (Z.mod_pos_bound (k / pw l) 32 ltac:(lia)). lia. Qed.
Lemma key2index_0 : forall k, Z.to_nat (Z.land k TRIE_MASK) = key2index k 0.
Proof. intros. unfold key2index. now rewrite Z.shiftr_0_r. Qed.
Lemma agree_S : forall l a b, agree (S l) a b <-> agree l a b /\ key2index a l = key2index b l.
Proof.
  intros l a b. unfold agree. rewrite pw_S. pose proof (pw_pos l) as P. rewrite !Z.rem_mul_r by lia. rewrite !key2index_div.
  pose proof (Z.mod_pos_bound a (pw l) P). pose proof (Z.mod_pos_bound b (pw l) P). pose proof (Z.mod_pos_bound (a / pw l) 32 ltac:(lia)). pose proof (Z.mod_pos_bound (b / pw l) 32 ltac:(lia)).
  split; [intros E|intros (E1 & E2)].
  - assert (E1 : a mod pw l = b mod pw l).
    { apply (f_equal (fun z => z mod pw l)) in E. rewrite !(Z.mul_comm (pw l)), !Z.mod_add, !Z.mod_mod in E by lia. exact E. }
    split; auto. rewrite E1 in E. apply Z.add_reg_l in E. apply Z.mul_reg_l in E; [congruence|lia].
  - rewrite E1. f_equal. f_equal. lia.
Qed.
Lemma agree_refl : forall l a, agree l a a. Proof. reflexivity. Qed.
Lemma agree_0 : forall a b, agree 0 a b. Proof. intros. unfold agree, pw. cbn. now rewrite !Z.mod_1_r. Qed.
Lemma agree_sym : forall l a b, agree l a b -> agree l b a. Proof. unfold agree. auto. Qed.
Lemma agree_trans : forall l a b c, agree l a b -> agree l b c -> agree l a c. Proof. unfold agree. intros. congruence. Qed.
Lemma agree_ext : forall l p i, (i < 32)%nat -> agree l (ext p l i) p.
Proof. intros l p i H. unfold agree, ext. pose proof (pw_pos l). rewrite (Z.mul_comm (pw l)), Z.mod_add, Z.mod_mod by lia. reflexivity. Qed.
Lemma index_ext : forall l p i, (i < 32)%nat -> key2index (ext p l i) l = i.
Proof.
  intros l p i H. rewrite key2index_div. unfold ext. pose proof (pw_pos l) as P. pose proof (Z.mod_pos_bound p (pw l) P). rewrite (Z.mul_comm (pw l)), Z.div_add by lia. rewrite Z.div_small by lia. rewrite Z.mod_small by lia. lia.
Qed.
Lemma agree_ext_S : forall l p i k, (i < 32)%nat -> agree (S l) k (ext p l i) <-> agree l k p /\ key2index k l = i.
Proof.
  intros l p i k H. rewrite agree_S, index_ext by auto. split; intros (A & E); split; auto.
  - eapply agree_trans; [exact A|]. now apply agree_ext.
  - eapply agree_trans; [exact A|]. now apply agree_sym, agree_ext.
Qed.
Lemma agree_all : forall a b, u64 a -> u64 b -> agree 13 a b -> a = b.
Proof.
  unfold agree, u64. intros a b Ha Hb E. change (pw 13) with (2 ^ 65) in E. assert (2 ^ 64 < 2 ^ 65) by reflexivity. rewrite !Z.mod_small in E by lia. auto.
Qed.

Section Leaves.
Context {P : Type}.
Implicit Types (h : heap P) (l : leaf P).
Lemma leaf_key_range : forall l, u64 (leaf_key l).
Proof. intros. unfold leaf_key, u64. apply Z.mod_pos_bound. reflexivity. Qed.
Lemma leaf_key_set_ok : forall l k, u64 k -> leaf_key (leaf_key_set l k) = k.
Proof.
  intros l k [H1 H2]. unfold leaf_key, leaf_key_set, LEAF_KEY_BITS, LEAF_KEY_MASK. cbn [key0 key1].
  change (2 ^ 32 - 1) with (Z.ones 32). rewrite !Z.land_ones, Z.shiftl_mul_pow2, Z.shiftr_div_pow2 by lia.
  assert (0 <= k / 2 ^ 32 < 2 ^ 32). { split; [apply Z.div_pos; lia|]. apply Z.div_lt_upper_bound; [lia|]. exact H2. }
  rewrite (Z.mod_small (k / 2 ^ 32)) by lia. rewrite (Z.mod_small (k / 2 ^ 32)) by lia. rewrite (Z.mod_small (k mod 2 ^ 32)) by (apply Z.mod_pos_bound; lia).
  pose proof (Z.div_mod k (2 ^ 32) ltac:(lia)) as D. replace (k / 2 ^ 32 * 2 ^ 32 + k mod 2 ^ 32) with k by lia. apply Z.mod_small. auto.
Qed.
(** the key of the leaf at an address *)
Definition kat h (a : nat) : option Z := option_map leaf_key (nth_error h a).
Lemma kat_range : forall h a k, kat h a = Some k -> u64 k.
Proof. intros h a k H. unfold kat in H. destruct (nth_error h a) as [x|]; [|discriminate]. injection H as <-. apply leaf_key_range. Qed.
Lemma kat_aget : forall h a k, kat h a = Some k -> exists l, aget h a = Ok l /\ nth_error h a = Some l /\ leaf_key l = k.
Proof. intros h a k H. unfold kat in H. destruct (nth_error h a) as [x|] eqn:E; [|discriminate]. injection H as <-. exists x. split; [now apply aget_ok|auto]. Qed.
Lemma kat_app : forall h h2 a k, kat h a = Some k -> kat (h ++ h2) a = Some k.
Proof. intros h h2 a k H. unfold kat in *. destruct (nth_error h a) eqn:E; [|discriminate]. rewrite nth_error_app1, E by (apply nth_error_Some; congruence). exact H. Qed.

(** leaves below a node, in slot order *)
Fixpoint leaves (f : nat) (n : node) : list nat :=
  match f with
  | O => []
  | S f' => flat_map (fun i => match slot n i with Some (ELeaf a) => [a] | Some (ENode m) => leaves f' m | _ => [] end) (seq 0 32)
  end.
Definition sub (f : nat) (o : option entry) : list nat :=
  match o with Some (ELeaf a) => [a] | Some (ENode m) => leaves f m | _ => [] end.
Lemma leaves_S : forall f n, leaves (S f) n = flat_map (fun i => sub f (slot n i)) (seq 0 32). Proof. reflexivity. Qed.

(** no node but the root has a single leaf and nothing else *)
Definition ok1 (n : node) : Prop := cnt (emap n) 32 = 1%nat -> lmap n = 0.
(** the invariant; [f] levels left, [level] digits fixed to those of [p] *)
Fixpoint wf (f level : nat) (p : Z) h (n : node) : Prop :=
  match f with
  | O => False
  | S f' =>
    wn n /\ emap n <> 0 /\
    forall i, (i < 32)%nat -> tb (emap n) i = true ->
      if tb (lmap n) i then exists a k, slot n i = Some (ELeaf a) /\ kat h a = Some k /\ agree level k p /\ key2index k level = i
      else exists m, slot n i = Some (ENode m) /\ wf f' (S level) (ext p level i) h m /\ ok1 m
  end.
Lemma in_leaves : forall f n a, In a (leaves (S f) n) <-> exists i, (i < 32)%nat /\ In a (sub f (slot n i)).
Proof. intros. rewrite leaves_S, in_flat_map. split; intros (i & H1 & H2); exists i; split; auto; [apply in_seq in H1; lia|apply in_seq; lia]. Qed.
Lemma leaves_keys : forall f level p h n a, wf f level p h n -> In a (leaves f n) -> exists k, kat h a = Some k /\ agree level k p.
Proof.
  induction f as [|f IH]; intros level p h n a W H; [destruct W|]. apply in_leaves in H. destruct H as (i & Hi & H). destruct W as (W & _ & S).
  unfold sub in H. destruct (slot n i) as [e|] eqn:E; [|destruct H]. specialize (S i Hi (slot_arc _ _ _ E)). destruct (tb (lmap n) i).
  - destruct S as (b & k & E2 & K & A & _). rewrite E in E2. injection E2 as ->. destruct H as [<-|[]]. eauto.
  - destruct S as (m & E2 & Wm & _). rewrite E in E2. injection E2 as ->. destruct (IH _ _ _ _ _ Wm H) as (k & K & A). exists k. split; auto. apply agree_ext_S in A; tauto.
Qed.
Lemma sub_index : forall f level p h n i a k, wf (S f) level p h n -> (i < 32)%nat -> In a (sub f (slot n i)) -> kat h a = Some k -> agree level k p /\ key2index k level = i.
Proof.
  intros f level p h n i a k (W & _ & S) Hi H K. unfold sub in H. destruct (slot n i) as [e|] eqn:E; [|destruct H]. specialize (S i Hi (slot_arc _ _ _ E)). destruct (tb (lmap n) i).
  - destruct S as (b & k' & E2 & K2 & A & X). rewrite E in E2. injection E2 as ->. destruct H as [<-|[]]. rewrite K in K2. injection K2 as <-. auto.
  - destruct S as (m & E2 & Wm & _). rewrite E in E2. injection E2 as ->. destruct (leaves_keys _ _ _ _ _ _ Wm H) as (k' & K2 & A). rewrite K in K2. injection K2 as <-. now apply agree_ext_S in A.
Qed.
Lemma wf_mono : forall f level p h h' n, (forall a, In a (leaves f n) -> kat h' a = kat h a) -> wf f level p h n -> wf f level p h' n.
Proof.
  induction f as [|f IH]; intros level p h h' n H W; [destruct W|]. destruct W as (W & E & S). split; auto. split; auto.
  intros i Hi T. specialize (S i Hi T). destruct (tb (lmap n) i).
  - destruct S as (a & k & E2 & K & R). exists a, k. split; auto. split; auto. rewrite H; auto. apply in_leaves. exists i. rewrite E2. split; auto. now left.
  - destruct S as (m & E2 & Wm & O). exists m. split; auto. split; auto. eapply IH; [|exact Wm]. intros a Ha. apply H. apply in_leaves. exists i. rewrite E2. split; auto.
Qed.
Lemma agree_wf : forall f level p q h n, agree level p q -> wf f level p h n -> wf f level q h n.
Proof.
  destruct f as [|f]; intros level p q h n A W; [destruct W|]. destruct W as (W & E & S). split; auto. split; auto.
  intros i Hi T. specialize (S i Hi T). destruct (tb (lmap n) i).
  - destruct S as (a & k & E2 & K & Ak & X). exists a, k. repeat split; auto. eapply agree_trans; eauto.
  - destruct S as (m & E2 & Wm & O). exists m. split; auto. split; auto. replace (ext q level i) with (ext p level i); auto. unfold ext, agree in *. now rewrite A.
Qed.

(** ** search *)
Lemma get_rec_ok : forall f level p h n key, wf f level p h n -> agree level key p ->
  exists r, get_rec f h n key level = Ok r /\
    match r with Some a => In a (leaves f n) /\ kat h a = Some key | None => forall a, In a (leaves f n) -> kat h a <> Some key end.
Proof.
  induction f as [|f IH]; intros level p h n key W A; [destruct W|]. pose proof W as W0. destruct W as (W & _ & S). cbn [get_rec].
  set (ind := key2index key level). assert (Hi : (ind < 32)%nat) by apply key2index_lt. rewrite has_arc_ok, is_leaf_ok by (auto; lia).
  assert (Other : forall a, In a (leaves (Datatypes.S f) n) -> kat h a = Some key -> In a (sub f (slot n ind))).
  { intros a Ha K. apply in_leaves in Ha. destruct Ha as (j & Hj & Ha). destruct (sub_index _ _ _ _ _ _ _ _ W0 Hj Ha K) as (_ & <-). exact Ha. }
  destruct (tb (emap n) ind) eqn:T; cbn [negb].
  2:{ exists None. split; auto. intros a Ha K. specialize (Other a Ha K). unfold slot in Other. rewrite T in Other. destruct Other. }
  specialize (S ind Hi T). destruct (tb (lmap n) ind).
  - destruct S as (a & k & E & K & Ak & X). rewrite (entry_slot n ind _ W Hi E). cbn [bind as_leaf]. destruct (kat_aget _ _ _ K) as (l & -> & _ & <-). cbn [bind].
    destruct (Z.eqb_spec (leaf_key l) key) as [<-|N].
    + exists (Some a). split; auto. split; auto. apply in_leaves. exists ind. rewrite E. split; auto. now left.
    + exists None. split; auto. intros b Hb Kb. specialize (Other b Hb Kb). rewrite E in Other. destruct Other as [<-|[]]. congruence.
  - destruct S as (m & E & Wm & _). rewrite (entry_slot n ind _ W Hi E). cbn [bind as_node].
    destruct (IH _ _ _ _ key Wm) as (r & -> & R). { apply agree_ext_S; auto. }
    exists r. split; auto. destruct r as [a|].
    + destruct R as (Ia & K). split; auto. apply in_leaves. exists ind. rewrite E. auto.
    + intros a Ha K. specialize (Other a Ha K). rewrite E in Other. apply (R a); auto.
Qed.

(** ** one slot changed *)
Lemma flat_map_ext_in : forall (A B : Type) (g g' : A -> list B) (xs : list A), (forall x, In x xs -> g x = g' x) -> flat_map g xs = flat_map g' xs.
Proof. intros A B g g' xs. induction xs as [|x l IHl]; intros Hx; auto. cbn [flat_map]. rewrite (Hx x) by now left. rewrite IHl; auto. intros; apply Hx; now right. Qed.
Lemma flat_map_change : forall (g g' : nat -> list nat) i s c, (s <= i < s + c)%nat -> (forall j, j <> i -> g' j = g j) ->
  exists A B, flat_map g (seq s c) = A ++ g i ++ B /\ flat_map g' (seq s c) = A ++ g' i ++ B.
Proof.
  intros g g' i s c H E. exists (flat_map g (seq s (i - s))), (flat_map g (seq (S i) (s + c - S i))).
  replace c with ((i - s) + (1 + (s + c - S i)))%nat at 1 3 by lia. rewrite !seq_app, !flat_map_app. cbn [seq flat_map]. replace (s + (i - s))%nat with i by lia. replace (i + 1)%nat with (S i) by lia. rewrite !app_nil_r.
  split; [reflexivity|]. f_equal; [|f_equal]; apply flat_map_ext_in; intros x Hx; apply in_seq in Hx; apply E; lia.
Qed.
Lemma leaves_change : forall f n n' i, (i < 32)%nat -> (forall j, j <> i -> slot n' j = slot n j) ->
  exists A B, leaves (S f) n = A ++ sub f (slot n i) ++ B /\ leaves (S f) n' = A ++ sub f (slot n' i) ++ B.
Proof.
  intros f n n' i H E. rewrite !leaves_S. apply (flat_map_change (fun i => sub f (slot n i)) (fun i => sub f (slot n' i)) i 0 32); [lia|]. intros j Hj. now rewrite E.
Qed.

Lemma set_nonzero : forall w i, tb w i = true -> w <> 0. Proof. intros w i T ->. now rewrite tb_0 in T. Qed.
Lemma w32_nonzero : forall w, w32 w -> w <> 0 -> exists i, (i < 32)%nat /\ tb w i = true.
Proof.
  intros w W N. assert (E : (w =? 0) = false) by now apply Z.eqb_neq. apply (word_nonzero w (w32_word w W)) in E. destruct E as (i & Hi & T). exists i. split; auto.
  destruct (Nat.lt_ge_cases i 32); auto. rewrite (w32_high w i W) in T by lia. discriminate.
Qed.

(** ** insertion *)
Definition added h (creator : leaf P) (key : Z) : heap P := h ++ [leaf_key_set creator key].
Lemma added_new : forall h c key, u64 key -> kat (added h c key) (length h) = Some key.
Proof. intros. unfold kat, added. rewrite nth_error_app2, Nat.sub_diag by lia. cbn. now rewrite leaf_key_set_ok. Qed.
Lemma added_old : forall h c key a k, kat h a = Some k -> kat (added h c key) a = Some k.
Proof. intros. now apply kat_app. Qed.

Lemma wf_added : forall f level p h n c key, wf f level p h n -> wf f level p (added h c key) n.
Proof. intros f level p h n c key W. eapply wf_mono; [|exact W]. intros a Ha. destruct (leaves_keys _ _ _ _ _ _ W Ha) as (k & K & _). rewrite K. now apply added_old. Qed.
Lemma tb_other : forall n n' i j, slot n' j = slot n j -> emap n' = emap n \/ emap n' = set_in_word (emap n) i -> j <> i -> tb (emap n') j = tb (emap n) j.
Proof. intros n n' i j _ [->| ->] N; auto. rewrite tb_set. destruct (Nat.eqb_spec j i); [lia|auto]. Qed.

Definition present (h : heap P) (L : list nat) (key : Z) : Prop := exists a, In a L /\ kat h a = Some key.
Lemma ok1_of : forall n i, wn n -> (i < 32)%nat -> tb (emap n) i = true -> tb (lmap n) i = false -> ok1 n.
Proof.
  intros n i W H T L C. destruct (Z.eq_dec (lmap n) 0); auto. destruct (w32_nonzero _ (wn_l n W) n0) as (j & Hj & Tj). pose proof (wn_sub n W j Tj) as Te.
  assert (i <> j) by congruence. pose proof (cnt_lt (emap n) i 32 H T). pose proof (cnt_lt (emap n) j 32 Hj Te). assert (i = j) by (apply (cnt_inj (emap n)); auto; lia). lia.
Qed.
Lemma add_rec_ok : forall f level p h num n key creator, (level + f = 13)%nat -> wf f level p h n -> agree level key p -> u64 key ->
  exists h1 num1 n1 a, add_rec f h num n key level creator = Ok (h1, num1, n1, a) /\ wf f level p h1 n1 /\
    ((In a (leaves f n) /\ kat h a = Some key /\ h1 = h /\ num1 = num /\ leaves f n1 = leaves f n /\ (ok1 n -> ok1 n1))
     \/ (~ present h (leaves f n) key /\ a = length h /\ h1 = added h creator key /\ num1 = (num + 1) mod 2 ^ 32
         /\ Permutation (leaves f n1) (a :: leaves f n) /\ ok1 n1)).
Proof.
  induction f as [|f IH]; intros level p h num n key creator HL W A U; [destruct W|]. pose proof W as W0. destruct W as (W & Ne & S). cbn [add_rec].
  set (ind := key2index key level). assert (Hi : (ind < 32)%nat) by apply key2index_lt. rewrite has_arc_ok, is_leaf_ok by (auto; lia).
  assert (Other : forall a, In a (leaves (Datatypes.S f) n) -> kat h a = Some key -> In a (sub f (slot n ind))).
  { intros a Ha K. apply in_leaves in Ha. destruct Ha as (j & Hj & Ha). destruct (sub_index _ _ _ _ _ _ _ _ W0 Hj Ha K) as (_ & <-). exact Ha. }
  (* the common case of a changed child: new child node m at ind *)
  assert (Child : forall h1 n1 m, wn n1 -> emap n1 = emap n -> (forall j, j <> ind -> tb (lmap n1) j = tb (lmap n) j) -> tb (lmap n1) ind = false -> tb (emap n) ind = true ->
     (forall j, slot n1 j = if (j =? ind)%nat then Some (ENode m) else slot n j) -> (h1 = h \/ h1 = added h creator key) ->
     wf f (Datatypes.S level) (ext p level ind) h1 m -> ok1 m -> wf (Datatypes.S f) level p h1 n1 /\ ok1 n1).
  { intros h1 n1 m Wn1 Em Lm Li Ti Sl Hh Wm Om. split; [|apply (ok1_of n1 ind); auto; rewrite Em; auto]. split; auto. split; [rewrite Em; auto|].
    intros i Hi' T'. rewrite Em in T'. rewrite Sl. destruct (Nat.eqb_spec i ind) as [->|Ni].
    - rewrite Li. eauto.
    - rewrite Lm by auto. assert (W1 : wf (Datatypes.S f) level p h1 n) by (destruct Hh as [->| ->]; auto; now apply wf_added). destruct W1 as (_ & _ & S1). exact (S1 i Hi' T'). }
  destruct (tb (emap n) ind) eqn:T; cbn [negb].
  - pose proof (S ind Hi T) as Si. destruct (tb (lmap n) ind) eqn:Tl; cbn [negb].
    + (* a leaf is there *)
      destruct Si as (a0 & k0 & E & K0 & Ak & X). rewrite (entry_slot n ind _ W Hi E). cbn [bind as_leaf]. destruct (kat_aget _ _ _ K0) as (l0 & -> & Hl0 & Ek). cbn [bind]. subst k0.
      destruct (Z.eqb_spec key (leaf_key l0)) as [Ek|Nk].
      * exists h, num, n, a0. split; auto. split; auto. left. rewrite Ek. repeat split; auto. apply in_leaves. exists ind. rewrite E. split; auto. now left.
      * destruct f as [|f'].
        { exfalso. apply Nk. apply agree_all; auto; [apply leaf_key_range|]. replace 13%nat with (Datatypes.S level) by lia. apply agree_S. split; [|rewrite X; reflexivity]. eapply agree_trans; [exact A|]. now apply agree_sym. }
        set (i0 := key2index (leaf_key l0) (Datatypes.S level)). assert (Hi0 : (i0 < 32)%nat) by apply key2index_lt.
        fold (single i0). destruct (single_ok i0 a0 Hi0) as (m1 & -> & Em & Lm & Wm & Sm). cbn [bind].
        set (p1 := ext p level ind).
        assert (Wm1 : wf (Datatypes.S f') (Datatypes.S level) p1 h m1).
        { split; auto. rewrite Em, Lm. split; [apply (set_nonzero _ i0); rewrite tb_set, Nat.eqb_refl; auto|]. intros i Hi' Ti. rewrite Ti. rewrite tb_set, tb_0, orb_false_r in Ti. apply Nat.eqb_eq in Ti. subst i.
          exists a0, (leaf_key l0). rewrite Sm, Nat.eqb_refl. repeat split; auto. apply agree_ext_S; auto. }
        assert (Lv1 : leaves (Datatypes.S f') m1 = [a0]).
        { destruct (leaves_change f' (Node 0 0 []) m1 i0 Hi0) as (B1 & B2 & X1 & X2). { intros j Hj. rewrite Sm. destruct (Nat.eqb_spec j i0); [lia|]. unfold slot. cbn [emap]. now rewrite tb_0. }
          rewrite X2, Sm, Nat.eqb_refl. assert (X3 : leaves (Datatypes.S f') (Node 0 0 []) = []). { rewrite leaves_S. rewrite (flat_map_ext_in _ _ _ (fun _ => [])); [reflexivity|]. intros j _. unfold slot. cbn [emap]. now rewrite tb_0. }
          rewrite X1 in X3. apply app_eq_nil in X3. destruct X3 as (-> & X3). apply app_eq_nil in X3. destruct X3 as (_ & ->). reflexivity. }
        destruct (IH (Datatypes.S level) p1 h num m1 key creator ltac:(lia) Wm1) as (h1 & num1 & m & a & -> & Wm' & R); auto. { apply agree_ext_S; auto. } cbn [bind].
        destruct (entry_set_ok n ind (ENode m) W Hi T) as (n1 & -> & En1 & Ln1 & Wn1 & Sn1). cbn [bind].
        destruct R as [(Ia & Ka & _)|(Np & -> & -> & -> & Pm & Om)].
        { exfalso. rewrite Lv1 in Ia. destruct Ia as [<-|[]]. rewrite K0 in Ka. congruence. }
        exists (added h creator key), ((num + 1) mod 2 ^ 32), (node_leaf_reset n1 ind), (length h). split; auto.
        assert (Wn2 : wn (node_leaf_reset n1 ind)).
        { constructor; cbn [node_leaf_reset emap lmap ents]; try apply Wn1; [apply w32_reset, Wn1|]. intros j Tj. destruct (Nat.lt_ge_cases j 64); [|rewrite (w32_high _ j (w32_reset _ ind (wn_l _ Wn1))) in Tj by lia; discriminate].
          rewrite tb_reset in Tj by auto. apply andb_true_iff in Tj. apply (wn_sub _ Wn1). tauto. }
        destruct (Child (added h creator key) (node_leaf_reset n1 ind) m) as (Wf & O1); auto.
        { intros j Hj. cbn [node_leaf_reset lmap]. rewrite Ln1. destruct (Nat.lt_ge_cases j 64); [|rewrite (w32_high _ j (w32_reset _ ind (wn_l _ W))), (w32_high _ j (wn_l _ W)) by lia; auto].
          rewrite tb_reset by auto. destruct (Nat.eqb_spec j ind); [lia|auto]. }
        { cbn [node_leaf_reset lmap]. rewrite tb_reset, Nat.eqb_refl by lia. reflexivity. }
        split; auto. right. split.
        { intros (b & Ib & Kb). specialize (Other b Ib Kb). rewrite E in Other. destruct Other as [<-|[]]. congruence. }
        split; auto. split; auto. split; auto. split; auto.
        destruct (leaves_change (Datatypes.S f') n (node_leaf_reset n1 ind) ind Hi) as (B1 & B2 & X1 & X2).
        { intros j Hj. change (slot (node_leaf_reset n1 ind) j) with (slot n1 j). rewrite Sn1. destruct (Nat.eqb_spec j ind); [lia|auto]. }
        rewrite X1, X2. change (slot (node_leaf_reset n1 ind) ind) with (slot n1 ind). rewrite Sn1, Nat.eqb_refl, E. cbn [sub]. rewrite Lv1 in Pm.
        change (length h :: B1 ++ [a0] ++ B2) with ([length h] ++ B1 ++ [a0] ++ B2). rewrite Pm. rewrite !app_assoc. apply Permutation_app_tail. change [length h; a0] with ([length h] ++ [a0]). rewrite app_assoc. apply Permutation_app_tail. apply Permutation_app_comm.
    + (* a node is there *)
      destruct Si as (m0 & E & Wm0 & O0). rewrite (entry_slot n ind _ W Hi E). cbn [bind as_node].
      destruct (IH (Datatypes.S level) (ext p level ind) h num m0 key creator ltac:(lia) Wm0) as (h1 & num1 & m & a & -> & Wm' & R); auto. { apply agree_ext_S; auto. } cbn [bind].
      destruct (entry_set_ok n ind (ENode m) W Hi T) as (n1 & -> & En1 & Ln1 & Wn1 & Sn1). cbn [bind].
      exists h1, num1, n1, a. split; auto.
      assert (Om : ok1 m) by (destruct R as [(_ & _ & _ & _ & _ & O)|(_ & _ & _ & _ & _ & O)]; auto).
      assert (Hh : h1 = h \/ h1 = added h creator key) by (destruct R as [(_ & _ & -> & _)|(_ & _ & -> & _)]; auto).
      destruct (Child h1 n1 m) as (Wf & O1); auto. { intros j _. now rewrite Ln1. } { now rewrite Ln1. }
      split; auto. destruct (leaves_change f n n1 ind Hi) as (B1 & B2 & X1 & X2). { intros j Hj. rewrite Sn1. destruct (Nat.eqb_spec j ind); [lia|auto]. }
      rewrite Sn1, Nat.eqb_refl in X2. rewrite E in X1. cbn [sub] in X1, X2.
      destruct R as [(Ia & Ka & -> & -> & Lv & _)|(Np & -> & -> & -> & Pm & _)].
      * left. repeat split; auto. { rewrite X1, !in_app_iff. auto. } now rewrite X1, X2, Lv.
      * right. split. { intros (b & Ib & Kb). apply Np. exists b. specialize (Other b Ib Kb). rewrite E in Other. auto. }
        repeat split; auto. rewrite X1, X2, Pm. cbn [app]. symmetry. apply Permutation_middle.
  - (* a free slot *)
    unfold new_leaf. destruct (node_insert_ok n ind (ELeaf (length h)) true W Hi T) as (n1 & -> & En1 & Ln1 & Wn1 & Sn1). cbn [bind].
    assert (Tl : tb (lmap n) ind = false). { destruct (tb (lmap n) ind) eqn:X; auto. apply (wn_sub n W) in X. congruence. }
    eexists _, _, _, _. split; [reflexivity|]. fold (added h creator key). split; [split; auto; split|right].
    + apply (set_nonzero _ ind). rewrite En1, tb_set, Nat.eqb_refl. auto.
    + intros i Hi' T'. rewrite Ln1, tb_set, Sn1. destruct (Nat.eqb_spec i ind) as [->|Ni]; cbn [orb].
      * exists (length h), key. repeat split; auto. now apply added_new.
      * rewrite En1, tb_set in T'. destruct (Nat.eqb_spec i ind); [lia|]. cbn [orb] in T'. assert (W1 : wf (Datatypes.S f) level p (added h creator key) n) by now apply wf_added. destruct W1 as (_ & _ & S1). exact (S1 i Hi' T').
    + destruct (leaves_change f n n1 ind Hi) as (B1 & B2 & X1 & X2). { intros j Hj. rewrite Sn1. destruct (Nat.eqb_spec j ind); [lia|auto]. }
      rewrite Sn1, Nat.eqb_refl in X2. assert (E : slot n ind = None) by (unfold slot; now rewrite T). rewrite E in X1. cbn [sub] in X1, X2. split.
      { intros (b & Ib & Kb). specialize (Other b Ib Kb). rewrite E in Other. destruct Other. }
      repeat split; auto. { rewrite X1, X2. symmetry. apply Permutation_middle. }
      intros C. exfalso. rewrite En1, cnt_set in C by auto. destruct (Nat.ltb_spec ind 32); [|lia]. destruct (w32_nonzero _ (wn_e n W) Ne) as (j & Hj & Tj). pose proof (cnt_lt _ _ _ Hj Tj). lia.
Qed.
End Leaves.
