(** Node-level operations of the compact trie, in terms of the 32 logical slots. *)
From Coq Require Import ZArith List Bool Arith Lia.
From Verif Require Import Outcome BitsModel BitsSpec BitsProofs BitsProofs3 SparseModel.
Import ListNotations.
Local Open Scope Z_scope.
Ltac Zify.zify_post_hook ::= idtac.

(** ** arrays *)
Lemma aget_ok : forall A (l : list A) i x, nth_error l i = Some x -> aget l i = Ok x.
Proof. intros A l i x H. unfold aget. now rewrite H. Qed.
Lemma aset_ok : forall A (l : list A) i x, (i < length l)%nat ->
  exists l', aset l i x = Ok l' /\ length l' = length l /\ forall j, nth_error l' j = if (j =? i)%nat then Some x else nth_error l j.
Proof.
  intros A l i x H. unfold aset. destruct (Nat.ltb_spec i (length l)); [|lia]. eexists. split; [reflexivity|]. split.
  - rewrite app_length, firstn_length. cbn [length]. rewrite skipn_length. lia.
  - intros j. assert (Lf : length (firstn i l) = i) by (rewrite firstn_length; lia). destruct (Nat.eqb_spec j i) as [->|N].
    + rewrite nth_error_app2 by lia. rewrite Lf, Nat.sub_diag. reflexivity.
    + destruct (Nat.lt_ge_cases j i).
      * rewrite nth_error_app1 by lia. rewrite <- (firstn_skipn i l) at 2. rewrite nth_error_app1 by lia. reflexivity.
      * rewrite nth_error_app2 by lia. rewrite Lf. destruct (j - i)%nat as [|d] eqn:D; [lia|]. cbn [nth_error].
        rewrite <- (firstn_skipn (S i) l) at 2. assert (Lf2 : length (firstn (S i) l) = S i) by (rewrite firstn_length; lia).
        rewrite nth_error_app2 by lia. rewrite Lf2. f_equal. lia.
Qed.
Lemma nth_some : forall A (l : list A) i, (i < length l)%nat -> exists x, nth_error l i = Some x.
Proof. intros A l i H. destruct (nth_error l i) eqn:E; eauto. apply nth_error_None in E. lia. Qed.

(** ** counting bits *)
Definition cnt (w : Z) (i : nat) : nat := count_if (tb w) 0 i.
Definition w32 (w : Z) : Prop := 0 <= w < 2 ^ 32.
Lemma w32_word : forall w, w32 w -> word w.
Proof. intros w [H1 H2]. split; auto. change (2 ^ 64) with 18446744073709551616. change (2 ^ 32) with 4294967296 in H2. lia. Qed.
Lemma w32_high : forall w i, w32 w -> (32 <= i)%nat -> tb w i = false.
Proof.
  intros w i [H1 H2] Hi. unfold tb. destruct (Z.eq_dec w 0) as [->|N]; [apply Z.bits_0|]. apply Z.bits_above_log2; [lia|].
  assert (Z.log2 w < 32) by (apply Z.log2_lt_pow2; lia). lia.
Qed.
Lemma w32_of_bits : forall w, 0 <= w -> (forall i, (32 <= i)%nat -> tb w i = false) -> w32 w.
Proof.
  intros w H0 H. split; auto. destruct (Z.eq_dec w 0) as [->|N]; [reflexivity|]. apply Z.log2_lt_pow2; [lia|].
  destruct (Z.ltb_spec (Z.log2 w) 32); auto. specialize (H (Z.to_nat (Z.log2 w)) ltac:(lia)). unfold tb in H. rewrite Z2Nat.id in H by apply Z.log2_nonneg.
  rewrite Z.bit_log2 in H by lia. discriminate.
Qed.
Lemma test_tb : forall w i, (i < 64)%nat -> word w -> test_in_word w i = tb w i.
Proof.
  intros w i Hi W. unfold test_in_word. destruct (tb w i) eqn:T.
  - rewrite (proj2 (word_nonzero (Z.land w (2 ^ Z.of_nat i)) (word_land w (2 ^ Z.of_nat i) W ltac:(apply word_pow; auto)))); auto.
    exists i. split; auto. now rewrite tb_land, T, tb_pow, Nat.eqb_refl.
  - rewrite (proj2 (word_zero (Z.land w (2 ^ Z.of_nat i)) (word_land w (2 ^ Z.of_nat i) W ltac:(apply word_pow; auto)))); auto.
    intros j Hj. rewrite tb_land, tb_pow. destruct (Nat.eqb_spec j i) as [->|N]; [now rewrite T|apply andb_false_r].
Qed.
Lemma tb_set : forall w i j, tb (set_in_word w i) j = (j =? i)%nat || tb w j.
Proof. intros. unfold set_in_word. rewrite tb_lor, tb_pow. apply orb_comm. Qed.
Lemma tb_reset : forall w i j, (j < 64)%nat -> tb (reset_in_word w i) j = negb (j =? i)%nat && tb w j.
Proof. intros w i j H. unfold reset_in_word. rewrite tb_land, tb_cpl, tb_pow by auto. apply andb_comm. Qed.
Lemma w32_set : forall w i, w32 w -> (i < 32)%nat -> w32 (set_in_word w i).
Proof.
  intros w i W Hi. apply w32_of_bits. { unfold set_in_word. apply Z.lor_nonneg. split; [apply W|apply Z.pow_nonneg; lia]. }
  intros j Hj. rewrite tb_set, (w32_high w j W Hj). destruct (Nat.eqb_spec j i); auto; lia.
Qed.
Lemma w32_reset : forall w i, w32 w -> w32 (reset_in_word w i).
Proof.
  intros w i W. apply w32_of_bits. { unfold reset_in_word. apply Z.land_nonneg. left. apply W. }
  intros j Hj. unfold reset_in_word. now rewrite tb_land, (w32_high w j W Hj).
Qed.
Lemma count_below_ok : forall w i, w32 w -> (i <= 32)%nat -> count_below w i = cnt w i.
Proof.
  intros w i W Hi. unfold count_below, cnt. rewrite count_bits_ok by (apply word_land; [now apply w32_word|apply low_mask_nonneg]). rewrite Nat2Z.id.
  replace 64%nat with (i + (64 - i))%nat by lia. rewrite count_app. rewrite (count_zero (64 - i)), Nat.add_0_r.
  - apply count_ext. intros j Hj. rewrite tb_land, tb_low_mask. destruct (Nat.ltb_spec (0 + j) i); [apply andb_true_r|lia].
  - intros j Hj. rewrite tb_land, tb_low_mask. destruct (Nat.ltb_spec (0 + i + j) i); [lia|apply andb_false_r].
Qed.
Lemma nchildren_ok : forall n, w32 (emap n) -> node_nchildren n = cnt (emap n) 32.
Proof.
  intros n W. unfold node_nchildren, cnt. rewrite count_bits_ok by now apply w32_word. rewrite Nat2Z.id. change 64%nat with (32 + 32)%nat. rewrite count_app, (count_zero 32 _ (0 + 32)), Nat.add_0_r; auto.
  intros j Hj. apply w32_high; auto. lia.
Qed.
Lemma cnt_S : forall w i, cnt w (S i) = (cnt w i + if tb w i then 1 else 0)%nat.
Proof. intros. unfold cnt. replace (S i) with (i + 1)%nat by lia. rewrite count_app. cbn [count_if Nat.add]. destruct (tb w i); lia. Qed.
Lemma cnt_mono : forall w i j, (i <= j)%nat -> (cnt w i <= cnt w j)%nat.
Proof. intros w i j H. unfold cnt. replace j with (i + (j - i))%nat by lia. rewrite count_app. lia. Qed.
Lemma cnt_lt : forall w i j, (i < j)%nat -> tb w i = true -> (cnt w i < cnt w j)%nat.
Proof. intros w i j H T. pose proof (cnt_mono w (S i) j H). rewrite cnt_S, T in H0. lia. Qed.
Lemma cnt_inj : forall w i j, tb w i = true -> tb w j = true -> cnt w i = cnt w j -> i = j.
Proof. intros w i j Hi Hj E. destruct (Nat.lt_trichotomy i j) as [L|[L|L]]; auto; [pose proof (cnt_lt w i j L Hi)|pose proof (cnt_lt w j i L Hj)]; lia. Qed.
Lemma cnt_le : forall w i, (cnt w i <= i)%nat. Proof. intros. apply count_le. Qed.
Lemma cnt_set : forall w i j, tb w i = false -> cnt (set_in_word w i) j = (cnt w j + if (i <? j)%nat then 1 else 0)%nat.
Proof.
  intros w i j T. induction j as [|j IH]; [reflexivity|]. rewrite !cnt_S, IH, tb_set. destruct (Nat.eqb_spec j i) as [->|N].
  - rewrite T. cbn [orb]. destruct (Nat.ltb_spec i i), (Nat.ltb_spec i (S i)); lia.
  - cbn [orb]. destruct (Nat.ltb_spec i j), (Nat.ltb_spec i (S j)); lia.
Qed.
Lemma cnt_reset : forall w i j, tb w i = true -> (j <= 64)%nat -> (cnt (reset_in_word w i) j + if (i <? j)%nat then 1 else 0)%nat = cnt w j.
Proof.
  intros w i j T. induction j as [|j IH]; intros Hj; [reflexivity|]. rewrite !cnt_S, <- IH, tb_reset by lia. destruct (Nat.eqb_spec j i) as [->|N].
  - rewrite T. cbn [negb andb]. destruct (Nat.ltb_spec i i), (Nat.ltb_spec i (S i)); lia.
  - cbn [negb andb]. destruct (tb w j), (Nat.ltb_spec i j), (Nat.ltb_spec i (S j)); lia.
Qed.
Lemma cnt_set_same : forall w i, tb w i = true -> set_in_word w i = w.
Proof.
  intros w i T. apply Z.bits_inj'. intros k Hk. unfold set_in_word. rewrite Z.lor_spec, Z.pow2_bits_eqb by lia. destruct (Z.eqb_spec (Z.of_nat i) k) as [<-|]; [|apply orb_false_r]. unfold tb in T. now rewrite T.
Qed.

(** ** slots *)
Definition slot (n : node) (i : nat) : option entry := if tb (emap n) i then nth_error (ents n) (cnt (emap n) i) else None.
Record wn (n : node) : Prop := {
  wn_e : w32 (emap n);
  wn_l : w32 (lmap n);
  wn_sub : forall i, tb (lmap n) i = true -> tb (emap n) i = true;
  wn_cap : (cnt (emap n) 32 + cnt (emap n) 32 mod 2 <= length (ents n))%nat;
}.
Lemma has_arc_ok : forall n i, wn n -> (i < 64)%nat -> node_has_arc n i = tb (emap n) i.
Proof. intros n i W H. apply test_tb; auto. apply w32_word, W. Qed.
Lemma is_leaf_ok : forall n i, wn n -> (i < 64)%nat -> node_arc_is_leaf n i = tb (lmap n) i.
Proof. intros n i W H. apply test_tb; auto. apply w32_word, W. Qed.
Lemma off_ok : forall n i, wn n -> (i <= 32)%nat -> node_index2off n i = cnt (emap n) i.
Proof. intros n i W H. apply count_below_ok; auto. apply W. Qed.
Lemma off_bound : forall n i, wn n -> (i < 32)%nat -> tb (emap n) i = true -> (cnt (emap n) i < length (ents n))%nat.
Proof. intros n i W H T. pose proof (cnt_lt (emap n) i 32 H T). pose proof (wn_cap n W). lia. Qed.
Lemma entry_slot : forall n i e, wn n -> (i < 32)%nat -> slot n i = Some e -> node_entry n (node_index2off n i) = Ok e.
Proof. intros n i e W H S. unfold node_entry. rewrite off_ok by (auto; lia). apply aget_ok. unfold slot in S. destruct (tb (emap n) i); [exact S|discriminate]. Qed.
Lemma slot_arc : forall n i e, slot n i = Some e -> tb (emap n) i = true.
Proof. intros n i e H. unfold slot in H. destruct (tb (emap n) i); auto. discriminate. Qed.
Lemma slot_high : forall n i, wn n -> (32 <= i)%nat -> slot n i = None.
Proof. intros n i W H. unfold slot. now rewrite (w32_high _ _ (wn_e n W) H). Qed.

Lemma entry_set_ok : forall n i e, wn n -> (i < 32)%nat -> tb (emap n) i = true ->
  exists n', node_entry_set n (node_index2off n i) e = Ok n' /\ emap n' = emap n /\ lmap n' = lmap n /\ wn n' /\
    forall j, slot n' j = if (j =? i)%nat then Some e else slot n j.
Proof.
  intros n i e W H T. unfold node_entry_set. rewrite off_ok by (auto; lia). destruct (aset_ok _ (ents n) (cnt (emap n) i) e (off_bound n i W H T)) as (s & -> & L & N). cbn [bind].
  eexists. split; [reflexivity|]. cbn [emap lmap ents]. repeat split; auto; try apply W.
  - cbn [ents emap]. rewrite L. apply W.
  - intros j. unfold slot. cbn [emap ents]. rewrite N. destruct (Nat.eqb_spec j i) as [->|Nj]; [now rewrite T, Nat.eqb_refl|].
    destruct (tb (emap n) j) eqn:Tj; auto. destruct (Nat.eqb_spec (cnt (emap n) j) (cnt (emap n) i)) as [E|]; auto. apply cnt_inj in E; auto. lia.
Qed.

Lemma shift_up_ok : forall c ip s, (ip + c < length s)%nat ->
  exists s', shift_up c ip s = Ok s' /\ length s' = length s /\
    forall j, nth_error s' j = if (ip <? j)%nat && (j <=? ip + c)%nat then nth_error s (j - 1) else nth_error s j.
Proof.
  induction c as [|c IH]; intros ip s H; cbn [shift_up].
  - eexists. split; [reflexivity|]. split; auto. intros j. destruct (Nat.ltb_spec ip j), (Nat.leb_spec j (ip + 0)); auto; lia.
  - destruct (nth_some _ s (ip + c) ltac:(lia)) as (e & E). rewrite (aget_ok _ _ _ _ E). cbn [bind].
    destruct (aset_ok _ s (ip + c + 1) e ltac:(lia)) as (s1 & -> & L1 & N1). cbn [bind].
    destruct (IH ip s1 ltac:(lia)) as (s' & -> & L' & N'). eexists. split; [reflexivity|]. split; [lia|].
    intros j. rewrite N'. destruct (Nat.ltb_spec ip j), (Nat.leb_spec j (ip + c)), (Nat.leb_spec j (ip + S c)); cbn [andb]; try lia; rewrite N1.
    + destruct (Nat.eqb_spec (j - 1) (ip + c + 1)); auto; lia.
    + replace j with (ip + c + 1)%nat by lia. rewrite Nat.eqb_refl. replace (ip + c + 1 - 1)%nat with (ip + c)%nat by lia. auto.
    + destruct (Nat.eqb_spec j (ip + c + 1)); auto; lia.
    + destruct (Nat.eqb_spec j (ip + c + 1)); auto; lia.
Qed.
Lemma copy_ents_ok : forall c i d src dst, (i + c <= length src)%nat -> (i + d + c <= length dst)%nat ->
  exists dst', copy_ents c i d src dst = Ok dst' /\ length dst' = length dst /\
    forall j, nth_error dst' j = if (i + d <=? j)%nat && (j <? i + d + c)%nat then nth_error src (j - d) else nth_error dst j.
Proof.
  induction c as [|c IH]; intros i d src dst Hs Hd; cbn [copy_ents].
  - eexists. split; [reflexivity|]. split; auto. intros j. destruct (Nat.leb_spec (i + d) j), (Nat.ltb_spec j (i + d + 0)); auto; lia.
  - destruct (nth_some _ src i ltac:(lia)) as (e & E). rewrite (aget_ok _ _ _ _ E). cbn [bind].
    destruct (aset_ok _ dst (i + d) e ltac:(lia)) as (s1 & -> & L1 & N1). cbn [bind].
    destruct (IH (S i) d src s1 ltac:(lia) ltac:(lia)) as (s' & -> & L' & N'). eexists. split; [reflexivity|]. split; [lia|].
    intros j. rewrite N', N1. destruct (Nat.eqb_spec j (i + d)) as [->|N].
    + destruct (Nat.leb_spec (S i + d) (i + d)), (Nat.leb_spec (i + d) (i + d)), (Nat.ltb_spec (i + d) (i + d + S c)); cbn [andb]; try lia. replace (i + d - d)%nat with i by lia. auto.
    + destruct (Nat.leb_spec (S i + d) j), (Nat.leb_spec (i + d) j), (Nat.ltb_spec j (S i + d + c)), (Nat.ltb_spec j (i + d + S c)); cbn [andb]; auto; lia.
Qed.
Lemma shift_down_ok : forall c i s, (i + c < length s)%nat ->
  exists s', shift_down c i s = Ok s' /\ length s' = length s /\
    forall j, nth_error s' j = if (i <=? j)%nat && (j <? i + c)%nat then nth_error s (S j) else nth_error s j.
Proof.
  induction c as [|c IH]; intros i s H; cbn [shift_down].
  - eexists. split; [reflexivity|]. split; auto. intros j. destruct (Nat.leb_spec i j), (Nat.ltb_spec j (i + 0)); auto; lia.
  - destruct (nth_some _ s (i + 1) ltac:(lia)) as (e & E). rewrite (aget_ok _ _ _ _ E). cbn [bind].
    destruct (aset_ok _ s i e ltac:(lia)) as (s1 & -> & L1 & N1). cbn [bind].
    destruct (IH (S i) s1 ltac:(lia)) as (s' & -> & L' & N'). eexists. split; [reflexivity|]. split; [lia|].
    intros j. rewrite N', !N1. destruct (Nat.eqb_spec j i) as [->|N].
    + destruct (Nat.leb_spec (S i) i), (Nat.leb_spec i i), (Nat.ltb_spec i (i + S c)); cbn [andb]; try lia. now replace (S i) with (i + 1)%nat by lia.
    + destruct (Nat.eqb_spec (S j) i); destruct (Nat.leb_spec (S i) j), (Nat.leb_spec i j), (Nat.ltb_spec j (S i + c)), (Nat.ltb_spec j (i + S c)); cbn [andb]; auto; lia.
Qed.

Lemma odd_mod2 : forall k, Nat.odd k = true -> (k mod 2 = 1)%nat.
Proof. intros k H. rewrite <- Nat.bit0_mod, Nat.bit0_odd, H. reflexivity. Qed.
Lemma even_mod2 : forall k, Nat.odd k = false -> (k mod 2 = 0)%nat.
Proof. intros k H. rewrite <- Nat.bit0_mod, Nat.bit0_odd, H. reflexivity. Qed.
Lemma make_node_cap : forall k, length (ents (make_node k)) = (k + k mod 2)%nat.
Proof.
  intros k. unfold make_node. cbn [ents]. rewrite repeat_length. change (k + NODE_SIZE_INCR - 1)%nat with (k + 2 - 1)%nat. replace (k + 2 - 1)%nat with (k + 1)%nat by lia.
  pose proof (Nat.div_mod k 2 ltac:(lia)) as D. pose proof (Nat.mod_upper_bound k 2 ltac:(lia)) as U. pose proof (Nat.div_mod (k + 1) 2 ltac:(lia)) as D'. pose proof (Nat.mod_upper_bound (k + 1) 2 ltac:(lia)) as U'. lia.
Qed.

Lemma leafp_lmap : forall n i (b : bool), lmap (if b then node_leaf_set n i else n) = if b then set_in_word (lmap n) i else lmap n.
Proof. now destruct b. Qed.
Lemma leafp_emap : forall n i (b : bool), emap (if b then node_leaf_set n i else n) = emap n.
Proof. now destruct b. Qed.
Lemma leafp_ents : forall n i (b : bool), ents (if b then node_leaf_set n i else n) = ents n.
Proof. now destruct b. Qed.

Lemma node_insert_ok : forall n i e b, wn n -> (i < 32)%nat -> tb (emap n) i = false ->
  exists n', node_insert n i e b = Ok n' /\ emap n' = set_in_word (emap n) i /\ lmap n' = (if b then set_in_word (lmap n) i else lmap n) /\ wn n' /\
    forall j, slot n' j = if (j =? i)%nat then Some e else slot n j.
Proof.
  intros n i e b W H T.
  assert (Main : forall s, (length s >= cnt (emap n) 32 + 1 + (cnt (emap n) 32 + 1) mod 2)%nat ->
     (forall k, (k < cnt (emap n) i)%nat -> nth_error s k = nth_error (ents n) k) -> nth_error s (cnt (emap n) i) = Some e ->
     (forall k, (cnt (emap n) i < k <= cnt (emap n) 32)%nat -> nth_error s k = nth_error (ents n) (k - 1)) ->
     wn (Node (set_in_word (emap n) i) (if b then set_in_word (lmap n) i else lmap n) s) /\
     forall j, slot (Node (set_in_word (emap n) i) (if b then set_in_word (lmap n) i else lmap n) s) j = if (j =? i)%nat then Some e else slot n j).
  { intros s L N1 N2 N3. assert (C : cnt (set_in_word (emap n) i) 32 = (cnt (emap n) 32 + 1)%nat) by (rewrite (cnt_set _ _ _ T); destruct (Nat.ltb_spec i 32); lia).
    split.
    - constructor; cbn [emap lmap ents].
      + apply w32_set; auto. apply W.
      + destruct b; [apply w32_set; auto|]; apply W.
      + intros j Tj. rewrite tb_set. destruct b; [rewrite tb_set in Tj; apply orb_true_iff in Tj; destruct Tj as [->|Tj]; auto|]; rewrite (wn_sub n W j Tj); apply orb_true_r.
      + rewrite C. lia.
    - intros j. unfold slot. cbn [emap ents]. rewrite tb_set, cnt_set by auto. destruct (Nat.eqb_spec j i) as [->|Nj]; cbn [orb].
      + rewrite Nat.ltb_irrefl, Nat.add_0_r. exact N2.
      + destruct (tb (emap n) j) eqn:Tj; auto. destruct (Nat.ltb_spec i j).
        * assert (j < 32)%nat. { destruct (Nat.lt_ge_cases j 32); auto. rewrite (w32_high _ j (wn_e n W)) in Tj by lia. discriminate. }
          pose proof (cnt_mono (emap n) i j ltac:(lia)). pose proof (cnt_lt (emap n) j 32 ltac:(lia) Tj). rewrite N3 by lia. f_equal. lia.
        * rewrite Nat.add_0_r. apply N1. apply cnt_lt; auto. lia. }
  pose proof (wn_cap n W) as Cap. pose proof (cnt_mono (emap n) i 32 ltac:(lia)) as Cm.
  unfold node_insert. rewrite nchildren_ok by apply W. rewrite count_below_ok by (try apply W; lia).
  destruct (Nat.odd (cnt (emap n) 32)) eqn:O.
  - apply odd_mod2 in O. rewrite leafp_ents, leafp_lmap, leafp_emap. cbn [node_arc_set emap lmap ents].
    assert (M2 : ((cnt (emap n) 32 + 1) mod 2 = 0)%nat) by (rewrite Nat.add_mod by lia; rewrite O; reflexivity).
    assert (X : exists s1, (if (cnt (emap n) i <? cnt (emap n) 32)%nat then shift_up (cnt (emap n) 32 - cnt (emap n) i) (cnt (emap n) i) (ents n) else Ok (ents n)) = Ok s1 /\
      length s1 = length (ents n) /\ forall j, nth_error s1 j = if (cnt (emap n) i <? j)%nat && (j <=? cnt (emap n) 32)%nat then nth_error (ents n) (j - 1) else nth_error (ents n) j).
    { destruct (Nat.ltb_spec (cnt (emap n) i) (cnt (emap n) 32)).
      - destruct (shift_up_ok (cnt (emap n) 32 - cnt (emap n) i) (cnt (emap n) i) (ents n) ltac:(lia)) as (s1 & -> & L & N). eexists. split; [reflexivity|]. split; auto.
        intros j. rewrite N. now replace (cnt (emap n) i + (cnt (emap n) 32 - cnt (emap n) i))%nat with (cnt (emap n) 32) by lia.
      - eexists. split; [reflexivity|]. split; auto. intros j. destruct (Nat.ltb_spec (cnt (emap n) i) j), (Nat.leb_spec j (cnt (emap n) 32)); auto; lia. }
    destruct X as (s1 & -> & L1 & N1). cbn [bind]. destruct (aset_ok _ s1 (cnt (emap n) i) e ltac:(lia)) as (s2 & -> & L2 & N2). cbn [bind].
    destruct (Main s2) as (WN & SL).
    + lia.
    + intros k Hk. rewrite N2, N1. destruct (Nat.eqb_spec k (cnt (emap n) i)); [lia|]. destruct (Nat.ltb_spec (cnt (emap n) i) k); auto; lia.
    + rewrite N2, Nat.eqb_refl. reflexivity.
    + intros k Hk. rewrite N2, N1. destruct (Nat.eqb_spec k (cnt (emap n) i)); [lia|]. destruct (Nat.ltb_spec (cnt (emap n) i) k), (Nat.leb_spec k (cnt (emap n) 32)); cbn [andb]; auto; lia.
    + eexists. split; [reflexivity|]. cbn [emap lmap]. auto.
  - apply even_mod2 in O. rewrite leafp_ents, leafp_lmap, leafp_emap. cbn [node_arc_set emap lmap ents].
    assert (M2 : ((cnt (emap n) 32 + 1) mod 2 = 1)%nat) by (rewrite Nat.add_mod by lia; rewrite O; reflexivity).
    assert (M3 : ((cnt (emap n) 32 + NODE_SIZE_INCR) mod 2 = 0)%nat) by (unfold NODE_SIZE_INCR; rewrite Nat.add_mod by lia; rewrite O; reflexivity).
    pose proof (make_node_cap (cnt (emap n) 32 + NODE_SIZE_INCR)) as LM. rewrite M3 in LM. unfold NODE_SIZE_INCR in *.
    destruct (copy_ents_ok (cnt (emap n) i) 0 0 (ents n) (ents (make_node (cnt (emap n) 32 + 2))) ltac:(lia) ltac:(lia)) as (s1 & -> & L1 & N1). cbn [bind].
    destruct (aset_ok _ s1 (cnt (emap n) i) e ltac:(lia)) as (s2 & -> & L2 & N2). cbn [bind].
    destruct (copy_ents_ok (cnt (emap n) 32 - cnt (emap n) i) (cnt (emap n) i) 1 (ents n) s2 ltac:(lia) ltac:(lia)) as (s3 & -> & L3 & N3). cbn [bind].
    destruct (Main s3) as (WN & SL).
    + lia.
    + intros k Hk. rewrite N3. destruct (Nat.leb_spec (cnt (emap n) i + 1) k); [lia|]. cbn [andb]. rewrite N2. destruct (Nat.eqb_spec k (cnt (emap n) i)); [lia|].
      rewrite N1. destruct (Nat.leb_spec (0 + 0) k), (Nat.ltb_spec k (0 + 0 + cnt (emap n) i)); cbn [andb]; try lia. now rewrite Nat.sub_0_r.
    + rewrite N3. destruct (Nat.leb_spec (cnt (emap n) i + 1) (cnt (emap n) i)); [lia|]. cbn [andb]. rewrite N2, Nat.eqb_refl. reflexivity.
    + intros k Hk. rewrite N3. destruct (Nat.leb_spec (cnt (emap n) i + 1) k), (Nat.ltb_spec k (cnt (emap n) i + 1 + (cnt (emap n) 32 - cnt (emap n) i))); cbn [andb]; auto; lia.
    + eexists. split; [reflexivity|]. cbn [emap lmap]. auto.
Qed.

Lemma node_delete_ok : forall n i, wn n -> (i < 32)%nat -> tb (emap n) i = true ->
  exists n', node_delete n i = Ok (n', (cnt (emap n) 32 - 1)%nat) /\ emap n' = reset_in_word (emap n) i /\ lmap n' = reset_in_word (lmap n) i /\ wn n' /\
    forall j, slot n' j = if (j =? i)%nat then None else slot n j.
Proof.
  intros n i W H T. unfold node_delete. rewrite nchildren_ok by apply W. rewrite count_below_ok by (try apply W; lia).
  cbn [node_arc_reset node_leaf_reset emap lmap ents]. pose proof (cnt_lt (emap n) i 32 H T) as Lt. pose proof (wn_cap n W) as Cap.
  destruct (shift_down_ok (cnt (emap n) 32 - 1 - cnt (emap n) i) (cnt (emap n) i) (ents n) ltac:(lia)) as (s & -> & L & N). cbn [bind].
  eexists. split; [reflexivity|]. cbn [emap lmap]. split; auto. split; auto.
  pose proof (cnt_reset (emap n) i 32 T ltac:(lia)) as C. destruct (Nat.ltb_spec i 32); [|lia].
  split.
  - constructor; cbn [emap lmap ents].
    + apply w32_reset, W.
    + apply w32_reset, W.
    + intros j Tj. destruct (Nat.lt_ge_cases j 64); [|rewrite (w32_high _ j (w32_reset _ i (wn_l n W))) in Tj by lia; discriminate].
      rewrite tb_reset in * by auto. apply andb_true_iff in Tj. destruct Tj as (-> & Tj). rewrite (wn_sub n W j Tj). reflexivity.
    + rewrite L. pose proof (Nat.mod_upper_bound (cnt (reset_in_word (emap n) i) 32) 2 ltac:(lia)). lia.
  - intros j. unfold slot. cbn [emap ents]. destruct (Nat.lt_ge_cases j 64).
    2:{ rewrite (w32_high _ j (w32_reset _ i (wn_e n W))) by lia. rewrite (w32_high _ j (wn_e n W)) by lia. now destruct (j =? i)%nat. }
    rewrite tb_reset by auto. destruct (Nat.eqb_spec j i) as [->|Nj]; cbn [negb andb]; auto. destruct (tb (emap n) j) eqn:Tj; auto.
    assert (j < 32)%nat. { destruct (Nat.lt_ge_cases j 32); auto. rewrite (w32_high _ j (wn_e n W)) in Tj by lia. discriminate. }
    pose proof (cnt_reset (emap n) i j T ltac:(lia)) as Cj. pose proof (cnt_lt (emap n) j 32 ltac:(lia) Tj). rewrite N. destruct (Nat.ltb_spec i j).
    + pose proof (cnt_lt (emap n) i j ltac:(lia) T). destruct (Nat.leb_spec (cnt (emap n) i) (cnt (reset_in_word (emap n) i) j)), (Nat.ltb_spec (cnt (reset_in_word (emap n) i) j) (cnt (emap n) i + (cnt (emap n) 32 - 1 - cnt (emap n) i))); cbn [andb]; try lia. f_equal. lia.
    + assert (j < i)%nat by lia. pose proof (cnt_lt (emap n) j i ltac:(lia) Tj). destruct (Nat.leb_spec (cnt (emap n) i) (cnt (reset_in_word (emap n) i) j)); cbn [andb]; [lia|]. f_equal. lia.
Qed.

(** a fresh node with one leaf (ctrie.c:196-199, 212-217) *)
Definition single (i : nat) : node := node_leaf_set (node_arc_set (make_node NODE_SIZE_INCR) i) i.
Lemma single_ok : forall i a, (i < 32)%nat -> exists n, node_entry_set (single i) 0 (ELeaf a) = Ok n /\ emap n = set_in_word 0 i /\ lmap n = set_in_word 0 i /\ wn n /\
  forall j, slot n j = if (j =? i)%nat then Some (ELeaf a) else None.
Proof.
  intros i a H. eexists. split; [reflexivity|]. cbn [single make_node node_arc_set node_leaf_set emap lmap ents]. split; auto. split; auto.
  assert (C : forall j, cnt (set_in_word 0 i) j = if (i <? j)%nat then 1%nat else 0%nat).
  { intros j. rewrite cnt_set by apply tb_0. unfold cnt. rewrite count_zero; auto. intros k _. apply tb_0. }
  split.
  - constructor; cbn [emap lmap ents]; auto.
    + apply w32_set; auto. split; [lia|reflexivity].
    + apply w32_set; auto. split; [lia|reflexivity].
    + rewrite C. destruct (Nat.ltb_spec i 32); [|lia]. cbn. lia.
  - intros j. unfold slot. cbn [emap ents]. rewrite tb_set, tb_0, orb_false_r, C. destruct (Nat.eqb_spec j i) as [->|]; auto. now rewrite Nat.ltb_irrefl.
Qed.
