From Coq Require Import ZArith List Bool Arith Lia.
From Verif Require Import Outcome BitsModel BitsSpec.
Import ListNotations.
Local Open Scope Z_scope.
Ltac Zify.zify_post_hook ::= idtac.

Definition tb (w : Z) (i : nat) : bool := Z.testbit w (Z.of_nat i).
Lemma word_high : forall w i, word w -> 64 <= i -> Z.testbit w i = false.
Proof. intros w i [H0 H] Hi. destruct (Z.eq_dec w 0) as [->|N]; [apply Z.bits_0|]. apply Z.bits_above_log2; [lia|]. assert (Z.log2 w < 64) by (apply Z.log2_lt_pow2; lia). lia. Qed.
Lemma word_of_bits : forall w, 0 <= w -> (forall i, 64 <= i -> Z.testbit w i = false) -> word w.
Proof. intros w H0 H. split; auto. destruct (Z.eq_dec w 0) as [->|N]; [reflexivity|]. apply Z.log2_lt_pow2; [lia|]. destruct (Z.ltb_spec (Z.log2 w) 64); auto. specialize (H (Z.log2 w) ltac:(lia)). rewrite Z.bit_log2 in H by lia. discriminate. Qed.
Lemma word_ext : forall a b, word a -> word b -> (forall i, (i < 64)%nat -> tb a i = tb b i) -> a = b.
Proof. intros a b Ha Hb H. apply Z.bits_inj'. intros n Hn. destruct (Z.ltb_spec n 64); [|rewrite !word_high; auto]. specialize (H (Z.to_nat n) ltac:(lia)). unfold tb in H. now rewrite Z2Nat.id in H by lia. Qed.
Lemma word_land : forall a b, word a -> 0 <= b -> word (Z.land a b).
Proof. intros a b Ha Hb. apply word_of_bits; [apply Z.land_nonneg; unfold word in Ha; lia|]. intros i Hi. rewrite Z.land_spec, (word_high a) by auto. reflexivity. Qed.
Lemma word_lor : forall a b, word a -> word b -> word (Z.lor a b).
Proof. intros a b Ha Hb. apply word_of_bits; [apply Z.lor_nonneg; unfold word in *; lia|]. intros i Hi. now rewrite Z.lor_spec, !word_high by auto. Qed.
Lemma word_lxor : forall a b, word a -> word b -> word (Z.lxor a b).
Proof. intros a b Ha Hb. apply word_of_bits; [apply Z.lxor_nonneg; unfold word in *; lia|]. intros i Hi. now rewrite Z.lxor_spec, !word_high by auto. Qed.
Lemma word_ALL1 : word ALL1. Proof. split; [vm_compute; discriminate|reflexivity]. Qed.
Lemma word_0 : word 0. Proof. split; [lia|reflexivity]. Qed.
Lemma word_cpl : forall w, word w -> word (cpl w). Proof. intros. apply word_lxor; auto using word_ALL1. Qed.
Lemma low_mask_nonneg : forall n, 0 <= low_mask n.
Proof. intros. unfold low_mask. rewrite Z.ones_equiv. pose proof (Z.pow_pos_nonneg 2 (Z.of_nat n) ltac:(lia) ltac:(lia)). lia. Qed.
Lemma word_low_mask : forall n, (n <= 64)%nat -> word (low_mask n).
Proof. intros n H. apply word_of_bits; [apply low_mask_nonneg|]. intros i Hi. unfold low_mask. rewrite Z.ones_spec_high; lia || auto. Qed.
Lemma word_pow : forall i, (i < 64)%nat -> word (2 ^ Z.of_nat i).
Proof. intros i H. split; [apply Z.pow_nonneg; lia|apply Z.pow_lt_mono_r; lia]. Qed.
Lemma tb_land : forall a b i, tb (Z.land a b) i = tb a i && tb b i. Proof. intros. apply Z.land_spec. Qed.
Lemma tb_lor : forall a b i, tb (Z.lor a b) i = tb a i || tb b i. Proof. intros. apply Z.lor_spec. Qed.
Lemma tb_lxor : forall a b i, tb (Z.lxor a b) i = xorb (tb a i) (tb b i). Proof. intros. apply Z.lxor_spec. Qed.
Lemma tb_low_mask : forall n i, tb (low_mask n) i = (i <? n)%nat.
Proof. intros n i. unfold tb, low_mask. destruct (Nat.ltb_spec i n); [apply Z.ones_spec_low|apply Z.ones_spec_high]; lia. Qed.
Lemma tb_ALL1 : forall i, (i < 64)%nat -> tb ALL1 i = true.
Proof. intros i H. unfold tb, ALL1. apply Z.ones_spec_low. lia. Qed.
Lemma tb_cpl : forall w i, (i < 64)%nat -> tb (cpl w) i = negb (tb w i).
Proof. intros w i H. unfold cpl. rewrite tb_lxor, tb_ALL1 by auto. apply xorb_true_r. Qed.
Lemma tb_0 : forall i, tb 0 i = false. Proof. intros. apply Z.bits_0. Qed.
Lemma tb_pow : forall k i, tb (2 ^ Z.of_nat k) i = (i =? k)%nat.
Proof. intros k i. unfold tb. rewrite Z.pow2_bits_eqb by lia. destruct (Nat.eqb_spec i k), (Z.eqb_spec (Z.of_nat k) (Z.of_nat i)); auto; lia. Qed.
Lemma tb_mask : forall s e i, (i < 64)%nat -> tb (bits_mask s e) i = (s <=? i)%nat && ((e =? 0)%nat || (i <? e)%nat).
Proof.
  intros s e i H. unfold bits_mask. rewrite tb_land, tb_cpl, tb_low_mask by auto. rewrite andb_comm. f_equal.
  - destruct (Nat.ltb_spec i s), (Nat.leb_spec s i); auto; lia.
  - destruct (e =? 0)%nat; [apply tb_ALL1; auto|apply tb_low_mask].
Qed.
Lemma bits_mask_nonneg : forall s e, (s <= 64)%nat -> 0 <= bits_mask s e.
Proof. intros. unfold bits_mask. apply Z.land_nonneg. right. apply word_cpl, word_low_mask; auto. Qed.
Lemma word_zero : forall w, word w -> (w =? 0) = true <-> forall i, (i < 64)%nat -> tb w i = false.
Proof.
  intros w H. rewrite Z.eqb_eq. split; [intros ->; intros; apply tb_0|]. intros A. apply word_ext; auto using word_0. intros i Hi. rewrite tb_0. auto.
Qed.
Lemma word_nonzero : forall w, word w -> (w =? 0) = false <-> exists i, (i < 64)%nat /\ tb w i = true.
Proof.
  intros w H. split.
  - intros E. destruct (existsb (tb w) (seq 0 64)) eqn:X.
    + apply existsb_exists in X. destruct X as (i & Hi & T). apply in_seq in Hi. exists i. split; [lia|auto].
    + rewrite (proj2 (word_zero w H)) in E; [discriminate|]. intros i Hi. destruct (tb w i) eqn:T; auto. rewrite (proj2 (existsb_exists _ _)) in X; [discriminate|]. exists i. split; auto. apply in_seq. lia.
  - intros (i & Hi & T). apply not_true_is_false. intros E. rewrite (proj1 (word_zero w H) E) in T; auto. discriminate.
Qed.
(** memory *)
Lemma wrd_ok : forall mem i, (i < length mem)%nat -> wrd mem i = Ok (nth i mem 0).
Proof. intros mem i H. unfold wrd. rewrite (nth_error_nth' mem 0 H). reflexivity. Qed.
Lemma wrd_oob : forall mem i, (length mem <= i)%nat -> wrd mem i = UB.
Proof. intros mem i H. unfold wrd. now rewrite (proj2 (nth_error_None mem i) H). Qed.
Definition upd (mem : list Z) (i : nat) (w : Z) : list Z := firstn i mem ++ w :: skipn (S i) mem.
Lemma wwr_ok : forall mem i w, (i < length mem)%nat -> wwr mem i w = Ok (upd mem i w).
Proof. intros mem i w H. unfold wwr. destruct (Nat.ltb_spec i (length mem)); auto; lia. Qed.
Lemma upd_length : forall mem i w, (i < length mem)%nat -> length (upd mem i w) = length mem.
Proof. intros. unfold upd. rewrite app_length. cbn [length]. rewrite firstn_length, skipn_length. lia. Qed.
Lemma nth_upd : forall mem i w j, (i < length mem)%nat -> nth j (upd mem i w) 0 = if (j =? i)%nat then w else nth j mem 0.
Proof.
  intros mem i w j H. unfold upd. destruct (Nat.ltb_spec j i).
  - rewrite app_nth1 by (rewrite firstn_length; lia). destruct (Nat.eqb_spec j i); [lia|]. clear n. revert i j H H0. induction mem as [|x mem IH]; intros i j H H0; cbn [length] in *; [lia|]. destruct i; [lia|]. destruct j; [reflexivity|]. cbn [firstn nth]. apply IH; lia.
  - rewrite app_nth2 by (rewrite firstn_length; lia). rewrite firstn_length, Nat.min_l by lia. destruct (Nat.eqb_spec j i) as [->|]; [now rewrite Nat.sub_diag|]. destruct (j - i)%nat as [|d] eqn:E; [lia|]. cbn [nth]. rewrite <- (firstn_skipn (S i) mem) at 2. rewrite app_nth2 by (rewrite firstn_length; lia). rewrite firstn_length, Nat.min_l by lia. f_equal. lia.
Qed.
Lemma nth_word : forall mem i, memory mem -> word (nth i mem 0).
Proof. intros mem i H. destruct (Nat.ltb_spec i (length mem)); [|rewrite nth_overflow by lia; apply word_0]. unfold memory in H. rewrite Forall_forall in H. apply H, nth_In. auto. Qed.
Lemma upd_memory : forall mem i w, memory mem -> word w -> memory (upd mem i w).
Proof.
  intros mem i w H Hw. unfold memory, upd in *. apply Forall_app. split; [|constructor; auto].
  - rewrite <- (firstn_skipn i mem) in H. apply Forall_app in H. apply H.
  - rewrite <- (firstn_skipn (S i) mem) in H. apply Forall_app in H. apply H.
Qed.
(** bit numbers as word and position *)
Definition bw (mem : list Z) (q r : nat) : bool := tb (nth q mem 0) r.
Lemma bit_bw : forall mem k, bit mem k = bw mem (k / 64) (k mod 64). Proof. reflexivity. Qed.
Lemma split64 : forall k, exists q r, (k / 64 = q)%nat /\ (k mod 64 = r)%nat /\ k = (64 * q + r)%nat /\ (r < 64)%nat.
Proof. intros k. exists (k / 64)%nat, (k mod 64)%nat. pose proof (Nat.div_mod k 64 ltac:(lia)). pose proof (Nat.mod_upper_bound k 64 ltac:(lia)). auto. Qed.
Lemma div_qr : forall q r, (r < 64)%nat -> ((64 * q + r) / 64 = q)%nat.
Proof. intros. symmetry. apply (Nat.div_unique _ 64 q r); lia. Qed.
Lemma mod_qr : forall q r, (r < 64)%nat -> ((64 * q + r) mod 64 = r)%nat.
Proof. intros. symmetry. apply (Nat.mod_unique _ 64 q r); lia. Qed.
Lemma bit_qr : forall mem q r, (r < 64)%nat -> bit mem (64 * q + r)%nat = bw mem q r.
Proof. intros. now rewrite bit_bw, div_qr, mod_qr. Qed.
Lemma at_qr : forall mem p q r, (r < 64)%nat -> at_ mem p (64 * q + r)%nat = bw mem (p + q) r.
Proof. intros. unfold at_. replace (64 * p + (64 * q + r))%nat with (64 * (p + q) + r)%nat by lia. now apply bit_qr. Qed.
Lemma bw_upd : forall mem i w q r, (i < length mem)%nat -> bw (upd mem i w) q r = if (q =? i)%nat then tb w r else bw mem q r.
Proof. intros. unfold bw. rewrite nth_upd by auto. now destruct (q =? i)%nat. Qed.
Lemma by_words : forall (P : nat -> Prop), (forall q r, (r < 64)%nat -> P (64 * q + r)%nat) -> forall k, P k.
Proof. intros P H k. destruct (split64 k) as (q & r & _ & _ & -> & Hr). auto. Qed.
Ltac bsolve := repeat match goal with |- context [(?a <? ?b)%nat] => destruct (Nat.ltb_spec a b) | |- context [(?a <=? ?b)%nat] => destruct (Nat.leb_spec a b) | |- context [(?a =? ?b)%nat] => destruct (Nat.eqb_spec a b) end; try subst; cbn [andb orb negb]; try rewrite ?andb_true_r, ?andb_false_r, ?orb_true_r, ?orb_false_r; try reflexivity; try lia.

(** fill *)
Lemma fill_words_ok : forall n mem w v, memory mem -> word v -> (w + n <= length mem)%nat ->
  exists mem', fill_words n mem w v = Ok mem' /\ memory mem' /\ length mem' = length mem /\
    forall q, nth q mem' 0 = if (w <=? q)%nat && (q <? w + n)%nat then v else nth q mem 0.
Proof.
  induction n; intros mem w v M V L; cbn [fill_words].
  - exists mem. do 3 (split; auto). intros q. bsolve.
  - rewrite wwr_ok by lia. cbn [bind]. destruct (IHn (upd mem w v) (S w) v) as (m' & -> & M' & L' & N'); auto using upd_memory. { rewrite upd_length; lia. }
    exists m'. split; auto. split; auto. split; [rewrite L'; apply upd_length; lia|]. intros q. rewrite N', nth_upd by lia. bsolve.
Qed.
Definition range (lo hi k : nat) : bool := (lo <=? k)%nat && (k <? hi)%nat.
Lemma bits_fill_ok : forall mem p s e b, memory mem -> (s <= e)%nat -> (p + e / 64 < length mem)%nat ->
  exists mem', bits_fill mem p s e b = Ok mem' /\ memory mem' /\ length mem' = length mem /\
    forall k, bit mem' k = if range (64 * p + s) (64 * p + e) k then b else bit mem k.
Proof.
  intros mem p s e b M Hse L. unfold bits_fill.
  destruct (split64 s) as (sw & sb & -> & -> & Es & Hsb). destruct (split64 e) as (ew & eb & E1 & -> & Ee & Heb). rewrite E1 in *. clear E1.
  assert (Ws : word (nth (p + sw) mem 0)) by (apply nth_word; auto).
  pose proof (word_low_mask sb ltac:(lia)) as Ls. pose proof (word_low_mask eb ltac:(lia)) as Le. pose proof (word_cpl _ Ls) as Cs. pose proof (word_cpl _ Le) as Ce.
  destruct (Nat.eqb_spec sw ew) as [<-|N].
  - rewrite wrd_ok by lia. cbn [bind]. rewrite wwr_ok by lia. eexists. split; [reflexivity|].
    assert (Wm : word (Z.land (low_mask eb) (cpl (low_mask sb)))) by (apply word_land; [auto|apply Cs]).
    split. { apply upd_memory; auto. destruct b; [apply word_lor; auto|apply word_land; auto; apply word_cpl; auto]. }
    split; [apply upd_length; lia|]. apply by_words. intros q r Hr. rewrite !bit_qr, bw_upd by lia. unfold range.
    destruct (Nat.eqb_spec q (p + sw)) as [->|]; [|bsolve]. fold (bw mem (p + sw) r). unfold bw. destruct b.
    + rewrite tb_lor, tb_land, tb_cpl, !tb_low_mask by auto. bsolve.
    + rewrite tb_land, tb_cpl, tb_land, tb_cpl, !tb_low_mask by auto. bsolve.
  - assert (sw < ew)%nat by lia. rewrite wrd_ok by lia. cbn [bind]. rewrite wwr_ok by lia. cbn [bind].
    set (w1 := if b then _ else _). assert (W1 : word w1). { unfold w1. destruct b; [apply word_lor; auto|apply word_land; auto; apply low_mask_nonneg]. }
    destruct (fill_words_ok (ew - S sw) (upd mem (p + sw) w1) (p + S sw) (if b then ALL1 else 0)) as (m2 & -> & M2' & L2 & N2). { apply upd_memory; auto. } { destruct b; [apply word_ALL1|apply word_0]. } { rewrite upd_length; lia. }
    cbn [bind]. rewrite upd_length in L2 by lia. rewrite wrd_ok by lia. cbn [bind]. rewrite wwr_ok by lia.
    assert (Ew : nth (p + ew) m2 0 = nth (p + ew) mem 0). { rewrite N2, nth_upd by lia. bsolve. }
    rewrite Ew. eexists. split; [reflexivity|]. assert (We : word (nth (p + ew) mem 0)) by (apply nth_word; auto).
    split. { apply upd_memory; auto. destruct b; [apply word_lor; auto|apply word_land; auto; apply Ce]. }
    split; [rewrite upd_length; lia|]. apply by_words. intros q r Hr. rewrite !bit_qr, bw_upd by lia. unfold range.
    destruct (Nat.eqb_spec q (p + ew)) as [->|].
    + destruct b; rewrite ?tb_lor, ?tb_land, ?tb_cpl, ?tb_low_mask by auto; unfold bw; bsolve.
    + unfold bw. rewrite N2, nth_upd by lia. destruct (Nat.eqb_spec q (p + sw)) as [->|].
      * replace ((p + S sw <=? p + sw)%nat && (p + sw <? p + S sw + (ew - S sw))%nat) with false by bsolve. unfold w1. destruct b; rewrite ?tb_lor, ?tb_land, ?tb_cpl, ?tb_low_mask by auto; bsolve.
      * destruct (Nat.leb_spec (p + S sw) q), (Nat.ltb_spec q (p + S sw + (ew - S sw))); cbn [andb]; try bsolve.
        destruct b; [rewrite tb_ALL1 by auto|rewrite tb_0]; bsolve.
Qed.

(** copy *)
Lemma test_in_word_tb : forall w i, word w -> (i < 64)%nat -> test_in_word w i = tb w i.
Proof.
  intros w i W H. unfold test_in_word. assert (Wl : word (Z.land w (2 ^ Z.of_nat i))) by (apply word_land; auto; apply word_pow; auto). destruct (tb w i) eqn:T.
  - rewrite (proj2 (word_nonzero _ Wl)); auto. exists i. split; auto. rewrite tb_land, T, tb_pow, Nat.eqb_refl. reflexivity.
  - rewrite (proj2 (word_zero _ Wl)); auto. intros j Hj. rewrite tb_land, tb_pow. destruct (Nat.eqb_spec j i) as [->|]; [now rewrite T|apply andb_false_r].
Qed.
Lemma bits_test_ok : forall mem p i, memory mem -> (64 * p + i < 64 * length mem)%nat -> bits_test mem p i = Ok (at_ mem p i).
Proof.
  intros mem p i M H. unfold bits_test. destruct (split64 i) as (q & r & -> & -> & -> & Hr). rewrite wrd_ok by lia. cbn [bind]. rewrite test_in_word_tb by (auto using nth_word). now rewrite at_qr.
Qed.
Lemma bits_put_ok : forall mem p i (b : bool), memory mem -> (64 * p + i < 64 * length mem)%nat ->
  exists mem', (if b then bits_set mem p i else bits_reset mem p i) = Ok mem' /\ memory mem' /\ length mem' = length mem /\
    forall k, bit mem' k = if (k =? 64 * p + i)%nat then b else bit mem k.
Proof.
  intros mem p i b M H. unfold bits_set, bits_reset. destruct (split64 i) as (q & r & -> & -> & -> & Hr). rewrite wrd_ok by lia. cbn [bind]. rewrite !wwr_ok by lia.
  assert (W : word (nth (p + q) mem 0)) by (apply nth_word; auto). pose proof (word_pow r Hr) as Wp.
  exists (upd mem (p + q) (if b then set_in_word (nth (p + q) mem 0) r else reset_in_word (nth (p + q) mem 0) r)). split; [now destruct b|].
  split. { apply upd_memory; auto. destruct b; [apply word_lor; auto|apply word_land; auto; apply word_cpl; auto]. }
  split; [apply upd_length; lia|]. apply by_words. intros q' r' Hr'. rewrite !bit_qr, bw_upd by lia. unfold bw.
  destruct (Nat.eqb_spec q' (p + q)) as [->|]; [|bsolve]. destruct b; unfold set_in_word, reset_in_word; rewrite ?tb_lor, ?tb_land, ?tb_cpl, ?tb_pow by auto; bsolve.
Qed.
(** a forward copy is right unless the target starts inside the source range, after its start *)
Definition forward_safe (tp tstart sp sstart n : nat) : Prop := (64 * tp + tstart <= 64 * sp + sstart \/ 64 * sp + sstart + n <= 64 * tp + tstart)%nat.
Lemma copy_bits_ok : forall n mem tp t sp s, memory mem -> (64 * tp + t + n <= 64 * length mem)%nat -> (64 * sp + s + n <= 64 * length mem)%nat -> forward_safe tp t sp s n ->
  exists mem', copy_bits n mem tp t sp s = Ok mem' /\ memory mem' /\ length mem' = length mem /\
    forall k, bit mem' k = if range (64 * tp + t) (64 * tp + t + n) k then bit mem (64 * sp + s + (k - (64 * tp + t)))%nat else bit mem k.
Proof.
  induction n; intros mem tp t sp s M L1 L2 Sf; cbn [copy_bits].
  - exists mem. do 3 (split; auto). intros k. unfold range. bsolve.
  - rewrite bits_test_ok by (auto; lia). cbn [bind]. destruct (bits_put_ok mem tp t (at_ mem sp s) M ltac:(lia)) as (m1 & -> & M1' & Le & B1). cbn [bind].
    destruct (IHn m1 tp (S t) sp (S s)) as (m2 & -> & M2' & Le2 & B2); auto; try lia. { unfold forward_safe in *. lia. }
    exists m2. split; auto. split; auto. split; [lia|]. intros k. rewrite B2, !B1. unfold range, at_, forward_safe in *. destruct (Nat.eqb_spec k (64 * tp + t)) as [->|].
    + destruct (Nat.leb_spec (64 * tp + S t) (64 * tp + t)); [lia|]. cbn [andb]. destruct (Nat.leb_spec (64 * tp + t) (64 * tp + t)); [|lia]. destruct (Nat.ltb_spec (64 * tp + t) (64 * tp + t + S n)); [|lia]. cbn [andb]. f_equal. lia.
    + destruct (Nat.leb_spec (64 * tp + S t) k), (Nat.leb_spec (64 * tp + t) k); try lia; cbn [andb]; auto. replace (64 * tp + S t + n)%nat with (64 * tp + t + S n)%nat by lia. destruct (Nat.ltb_spec k (64 * tp + t + S n)); auto.
      replace (64 * sp + S s + (k - (64 * tp + S t)))%nat with (64 * sp + s + (k - (64 * tp + t)))%nat by lia. destruct (Nat.eqb_spec (64 * sp + s + (k - (64 * tp + t))) (64 * tp + t)); auto. lia.
Qed.
Lemma copy_words_ok : forall n mem tw sw, memory mem -> (tw + n <= length mem)%nat -> (sw + n <= length mem)%nat -> (tw <= sw \/ sw + n <= tw)%nat ->
  exists mem', copy_words n mem tw sw = Ok mem' /\ memory mem' /\ length mem' = length mem /\
    forall q, nth q mem' 0 = if range tw (tw + n) q then nth (sw + (q - tw)) mem 0 else nth q mem 0.
Proof.
  induction n; intros mem tw sw M L1 L2 Sf; cbn [copy_words].
  - exists mem. do 3 (split; auto). intros q. unfold range. bsolve.
  - rewrite wrd_ok by lia. cbn [bind]. rewrite wwr_ok by lia. cbn [bind]. destruct (IHn (upd mem tw (nth sw mem 0)) (S tw) (S sw)) as (m2 & -> & M2' & Le & N2); try (rewrite upd_length; lia). { apply upd_memory; auto using nth_word. } { lia. }
    exists m2. split; auto. split; auto. split; [rewrite upd_length in Le; lia|]. intros q. rewrite N2, !nth_upd by lia. unfold range. destruct (Nat.eqb_spec q tw) as [->|].
    + destruct (Nat.leb_spec (S tw) tw); [lia|]. cbn [andb]. destruct (Nat.leb_spec tw tw); [|lia]. destruct (Nat.ltb_spec tw (tw + S n)); [|lia]. cbn [andb]. f_equal. lia.
    + destruct (Nat.leb_spec (S tw) q), (Nat.leb_spec tw q); try lia; cbn [andb]; auto. replace (S tw + n)%nat with (tw + S n)%nat by lia. destruct (Nat.ltb_spec q (tw + S n)); auto.
      destruct (Nat.eqb_spec (S sw + (q - S tw)) tw); [lia|]. f_equal. lia.
Qed.
Lemma bits_copyx_ok : forall mem tp t sp s e, memory mem -> (s <= e)%nat -> (64 * tp + t + (e - s) <= 64 * length mem)%nat -> (64 * sp + e <= 64 * length mem)%nat -> forward_safe tp t sp s (e - s) ->
  exists mem', bits_copyx mem tp t sp s e = Ok mem' /\ memory mem' /\ length mem' = length mem /\
    forall k, bit mem' k = if range (64 * tp + t) (64 * tp + t + (e - s)) k then bit mem (64 * sp + s + (k - (64 * tp + t)))%nat else bit mem k.
Proof.
  intros mem tp t sp s e M Hse L1 L2 Sf. unfold bits_copyx. destruct ((t mod 64 =? 0) && (s mod 64 =? 0) && (e mod 64 =? 0))%nat eqn:A.
  - apply andb_true_iff in A. destruct A as (A & A3). apply andb_true_iff in A. destruct A as (A1 & A2). apply Nat.eqb_eq in A1, A2, A3.
    destruct (split64 t) as (tw & tb0 & -> & E1 & -> & _). destruct (split64 s) as (sw & sb0 & -> & E2 & -> & _). destruct (split64 e) as (ew & eb0 & -> & E3 & -> & _). rewrite A1 in E1. rewrite A2 in E2. rewrite A3 in E3. subst tb0 sb0 eb0. rewrite !Nat.add_0_r in *.
    unfold forward_safe in Sf. destruct (copy_words_ok (ew - sw) mem (tp + tw) (sp + sw) M) as (m' & -> & M' & Le & N'); try lia.
    exists m'. do 3 (split; auto). apply by_words. intros q r Hr. rewrite !bit_qr by auto. unfold bw. rewrite N'. unfold range.
    destruct (Nat.leb_spec (tp + tw) q), (Nat.ltb_spec q (tp + tw + (ew - sw))), (Nat.leb_spec (64 * tp + 64 * tw) (64 * q + r)), (Nat.ltb_spec (64 * q + r) (64 * tp + 64 * tw + (64 * ew - 64 * sw))); try lia; cbn [andb]; auto.
    replace (64 * sp + 64 * sw + (64 * q + r - (64 * tp + 64 * tw)))%nat with (64 * (sp + sw + (q - (tp + tw))) + r)%nat by lia. rewrite bit_qr by auto. reflexivity.
  - apply copy_bits_ok; auto. lia.
Qed.
