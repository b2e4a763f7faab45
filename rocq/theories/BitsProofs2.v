From Coq Require Import ZArith List Bool Arith Lia.
From Verif Require Import Outcome BitsModel BitsSpec BitsProofs.
Import ListNotations.
Local Open Scope Z_scope.
Ltac Zify.zify_post_hook ::= idtac.

Lemma word_word_op : forall op a b, word a -> word b -> word (word_op op a b).
Proof. intros op a b Ha Hb. pose proof (word_cpl a Ha). pose proof (word_cpl b Hb). destruct op; cbn [word_op]; repeat (apply word_cpl || apply word_lor || apply word_lxor || (apply word_land; [|unfold word in *; lia])); auto; unfold word in *; lia. Qed.
Lemma tb_word_op : forall op a b i, (i < 64)%nat -> tb (word_op op a b) i = bool_op op (tb a i) (tb b i).
Proof. intros op a b i H. destruct op; cbn [word_op bool_op]; rewrite ?tb_cpl, ?tb_land, ?tb_lor, ?tb_lxor, ?tb_cpl by auto; reflexivity. Qed.
Lemma word_op_unused1 : forall op x x' y, uses1 op = false -> word_op op x y = word_op op x' y. Proof. intros [] *; cbn; congruence. Qed.
Lemma word_op_unused2 : forall op x y y', uses2 op = false -> word_op op x y = word_op op x y'. Proof. intros [] *; cbn; congruence. Qed.
(** two word ranges of the memory are the same or disjoint *)
Definition same_or_apart (r a lo hi : nat) : Prop := (r = a \/ r + hi <= a + lo \/ a + hi <= r + lo)%nat.
Definition op_mask (sw sb ew eb w : nat) (z : Z) : Z :=
  if ((w =? sw) && negb (sb =? 0))%nat then Z.land z (cpl (low_mask sb)) else if (w =? ew)%nat then Z.land z (low_mask eb) else z.
Lemma word_op_mask : forall sw sb ew eb w z, (sb < 64)%nat -> word z -> word (op_mask sw sb ew eb w z).
Proof. intros. unfold op_mask. destruct (_ && _)%bool; [apply word_land; auto; apply word_cpl, word_low_mask; lia|]. destruct (_ =? _)%nat; auto. apply word_land; auto. apply low_mask_nonneg. Qed.
Lemma operate_loop_ok : forall n mem r op a b sw sb ew eb w, memory mem -> (sb < 64)%nat -> (r + w + n <= length mem)%nat -> (uses1 op = true -> (a + w + n <= length mem)%nat) -> (uses2 op = true -> (b + w + n <= length mem)%nat) ->
  same_or_apart r a w (w + n) -> same_or_apart r b w (w + n) ->
  exists mem', operate_loop n mem r op a b sw sb ew eb w = Ok mem' /\ memory mem' /\ length mem' = length mem /\
    forall q, nth q mem' 0 = if range (r + w) (r + w + n) q then op_mask sw sb ew eb (q - r) (word_op op (nth (a + (q - r)) mem 0) (nth (b + (q - r)) mem 0)) else nth q mem 0.
Proof.
  induction n; intros mem r op a b sw sb ew eb w M Hsb L1 L2 L3 S1 S2; cbn [operate_loop].
  - exists mem. do 3 (split; auto). intros q. unfold range. bsolve.
  - assert (R1 : exists x, (if uses1 op then wrd mem (a + w)%nat else Ok 0) = Ok x /\ word x /\ forall y, word_op op x y = word_op op (nth (a + w) mem 0) y). { destruct (uses1 op) eqn:U. - rewrite wrd_ok by (specialize (L2 eq_refl); lia). eexists. split; [reflexivity|]. split; auto using nth_word. - exists 0. split; auto. split; [apply word_0|]. intros y. now apply word_op_unused1. }
    assert (R2 : exists y, (if uses2 op then wrd mem (b + w)%nat else Ok 0) = Ok y /\ word y /\ forall x, word_op op x y = word_op op x (nth (b + w) mem 0)). { destruct (uses2 op) eqn:U. - rewrite wrd_ok by (specialize (L3 eq_refl); lia). eexists. split; [reflexivity|]. split; auto using nth_word. - exists 0. split; auto. split; [apply word_0|]. intros y. now apply word_op_unused2. }
    destruct R1 as (x & -> & Wx & Ex). destruct R2 as (y & -> & Wy & Ey). cbn [bind]. rewrite wwr_ok by lia. cbn [bind]. fold (op_mask sw sb ew eb w (word_op op x y)). rewrite Ex, Ey.
    set (z := op_mask sw sb ew eb w _). assert (Wz : word z). { unfold z. apply word_op_mask; auto. apply word_word_op; auto using nth_word. }
    destruct (IHn (upd mem (r + w) z) r op a b sw sb ew eb (S w)) as (m' & -> & M' & Le & N'); auto; try (rewrite upd_length by lia); try lia.
    { apply upd_memory; auto. } { intros U. specialize (L2 U). lia. } { intros U. specialize (L3 U). lia. } { unfold same_or_apart in *. lia. } { unfold same_or_apart in *. lia. }
    exists m'. split; auto. split; auto. split; [rewrite upd_length in Le by lia; lia|]. intros q. rewrite N', !nth_upd by lia. unfold range. destruct (Nat.eqb_spec q (r + w)) as [->|].
    + destruct (Nat.leb_spec (r + S w) (r + w)); [lia|]. cbn [andb]. destruct (Nat.leb_spec (r + w) (r + w)); [|lia]. destruct (Nat.ltb_spec (r + w) (r + w + S n)); [|lia]. cbn [andb]. unfold z. replace (r + w - r)%nat with w by lia. reflexivity.
    + destruct (Nat.leb_spec (r + S w) q), (Nat.leb_spec (r + w) q); try lia; cbn [andb]; auto. replace (r + S w + n)%nat with (r + w + S n)%nat by lia. destruct (Nat.ltb_spec q (r + w + S n)); auto.
      unfold same_or_apart in *. destruct (Nat.eqb_spec (a + (q - r)) (r + w)); [lia|]. destruct (Nat.eqb_spec (b + (q - r)) (r + w)); [lia|]. reflexivity.
Qed.
(** what the code does: within the words the range touches, the bits before the range are
    cleared, and so are those after it unless the range starts inside its last word *)
Definition nwords (s e : nat) : nat := ((e + 63) / 64 - s / 64)%nat.
Lemma bits_operate_ok : forall mem r op a b s e, memory mem -> (s <= e)%nat -> (64 * r + e <= 64 * length mem)%nat -> (uses1 op = true -> (64 * a + e <= 64 * length mem)%nat) -> (uses2 op = true -> (64 * b + e <= 64 * length mem)%nat) ->
  (s mod 64 = 0)%nat ->
  same_or_apart r a (s / 64) (s / 64 + nwords s e) -> same_or_apart r b (s / 64) (s / 64 + nwords s e) ->
  exists mem', bits_operate mem r op a b s e = Ok mem' /\ memory mem' /\ length mem' = length mem /\
    (forall i, (s <= i < e)%nat -> at_ mem' r i = bool_op op (at_ mem a i) (at_ mem b i)) /\
    (forall k, (k < 64 * r + s)%nat \/ (64 * r + 64 * ((e + 63) / 64) <= k)%nat -> bit mem' k = bit mem k) /\
    (forall i, (e <= i < 64 * ((e + 63) / 64))%nat -> at_ mem' r i = false).
Proof.
  intros mem r op a b s e M Hse L1 L2 L3 As S1 S2. unfold bits_operate. unfold nwords in *.
  destruct (split64 s) as (sw & sb & E1 & E2 & Es & Hsb). rewrite E1, E2 in *. rewrite As in *. destruct (split64 e) as (ew & eb & E3 & E4 & Ee & Heb). rewrite E3, E4. subst sb.
  assert (Nw : ((e + 63) / 64 = ew + (if (eb =? 0) then 0 else 1))%nat). { subst e. destruct (Nat.eqb_spec eb 0). - subst eb. replace (64 * ew + 0 + 63)%nat with (64 * ew + 63)%nat by lia. rewrite div_qr by lia. lia. - replace (64 * ew + eb + 63)%nat with (64 * (ew + 1) + (eb - 1))%nat by lia. now rewrite div_qr by lia. }
  rewrite Nw in *. set (nw := (ew + (if (eb =? 0) then 0 else 1))%nat) in *.
  assert (Hnw : (nw = ew /\ eb = 0 \/ nw = S ew /\ 0 < eb)%nat). { unfold nw. destruct (Nat.eqb_spec eb 0); lia. } clearbody nw.
  destruct (operate_loop_ok (nw - sw) mem r op a b sw 0 ew eb sw M ltac:(lia)) as (m' & -> & M' & Le & N'); auto; try lia.
  { intros U. specialize (L2 U). lia. } { intros U. specialize (L3 U). lia. }
  exists m'. do 3 (split; auto). split; [|split].
  - intros i. destruct (split64 i) as (q & t & _ & _ & -> & Ht). intros Hi. rewrite !at_qr by auto. unfold bw. rewrite N'. unfold range, op_mask. destruct (Nat.leb_spec (r + sw) (r + q)); [|lia]. destruct (Nat.ltb_spec (r + q) (r + sw + (nw - sw))); [|lia]. cbn [andb]. replace (r + q - r)%nat with q by lia. rewrite andb_false_r.
    destruct (Nat.eqb_spec q ew) as [->|].
    + rewrite tb_land, tb_word_op, tb_low_mask by auto. destruct (Nat.ltb_spec t eb); [apply andb_true_r|lia].
    + now rewrite tb_word_op.
  - apply (by_words (fun k => (k < 64 * r + s)%nat \/ (64 * r + 64 * nw <= k)%nat -> bit m' k = bit mem k)). intros q t Ht Hk. rewrite !bit_qr by auto. unfold bw. rewrite N'. unfold range. destruct (Nat.leb_spec (r + sw) q), (Nat.ltb_spec q (r + sw + (nw - sw))); cbn [andb]; auto. lia.
  - intros i. destruct (split64 i) as (q & t & _ & _ & -> & Ht). intros Hi. rewrite at_qr by auto. assert (q = ew) by lia. subst q. unfold bw. rewrite N'. unfold range, op_mask. destruct (Nat.leb_spec (r + sw) (r + ew)); [|lia]. destruct (Nat.ltb_spec (r + ew) (r + sw + (nw - sw))); [|lia]. cbn [andb]. replace (r + ew - r)%nat with ew by lia. rewrite andb_false_r, Nat.eqb_refl. rewrite tb_land, tb_low_mask. destruct (Nat.ltb_spec t eb); [lia|apply andb_false_r].
Qed.

(** comparison *)
Definition diff_ok (diff : Z -> Z -> Z) (rel : bool -> bool -> bool) : Prop :=
  (forall x y, word x -> word y -> word (diff x y)) /\ (forall x y i, (i < 64)%nat -> tb (diff x y) i = negb (rel (tb x i) (tb y i))).
Lemma diff_equal_ok : diff_ok diff_equal Bool.eqb.
Proof. split; [intros; apply word_lxor; auto|]. intros x y i H. unfold diff_equal. rewrite tb_lxor. now destruct (tb x i), (tb y i). Qed.
Lemma diff_includes_ok : diff_ok diff_includes (fun a b => implb b a).
Proof. split; [intros; apply word_lxor; auto; apply word_lor; auto|]. intros x y i H. unfold diff_includes. rewrite tb_lxor, tb_lor. now destruct (tb x i), (tb y i). Qed.
Lemma cmp_words_ok : forall diff rel, diff_ok diff rel -> forall n mem a b, memory mem -> (a + n <= length mem)%nat -> (b + n <= length mem)%nat ->
  exists r, cmp_words diff n mem a b = Ok r /\ (r = true <-> forall q t, (q < n)%nat -> (t < 64)%nat -> rel (bw mem (a + q) t) (bw mem (b + q) t) = true).
Proof.
  intros diff rel (Dw & Db). induction n; intros mem a b M L1 L2; cbn [cmp_words].
  - exists true. split; auto. split; auto. intros _ q t Hq. lia.
  - rewrite !wrd_ok by lia. cbn [bind]. assert (W : word (diff (nth a mem 0) (nth b mem 0))) by (apply Dw; auto using nth_word). destruct (diff (nth a mem 0) (nth b mem 0) =? 0) eqn:E; cbn [negb].
    + destruct (IHn mem (S a) (S b) M ltac:(lia) ltac:(lia)) as (r & -> & Hr). exists r. split; auto. rewrite Hr. pose proof (proj1 (word_zero _ W) E) as Z0. split; intros H q t Hq Ht.
      * destruct q as [|q]; [|replace (a + S q)%nat with (S a + q)%nat by lia; replace (b + S q)%nat with (S b + q)%nat by lia; apply H; lia]. rewrite !Nat.add_0_r. specialize (Z0 t Ht). rewrite Db in Z0 by auto. now apply negb_false_iff in Z0.
      * replace (S a + q)%nat with (a + S q)%nat by lia. replace (S b + q)%nat with (b + S q)%nat by lia. apply H; lia.
    + exists false. split; auto. split; [discriminate|]. intros H. apply (word_nonzero _ W) in E. destruct E as (t & Ht & T). rewrite Db in T by auto. specialize (H 0%nat t ltac:(lia) Ht). rewrite !Nat.add_0_r in H. unfold bw in H. rewrite H in T. discriminate.
Qed.
Lemma bits_cmp_ok : forall diff rel mem a b s e, diff_ok diff rel -> memory mem -> (s <= e)%nat -> (s mod 64 = 0)%nat -> array mem a e -> array mem b e ->
  exists r, bits_cmp diff mem a b s e = Ok r /\ (r = true <-> forall i, (s <= i < e)%nat -> rel (at_ mem a i) (at_ mem b i) = true).
Proof.
  intros diff rel mem a b s e D M Hse As L1 L2. pose proof D as (Dw & Db). unfold bits_cmp, array in *. destruct (split64 s) as (sw & sb & E1 & E2 & Es & Hsb). rewrite As in E2. subst sb. rewrite E1, As. cbn [Nat.eqb bind negb].
  destruct (split64 e) as (ew & eb & -> & -> & Ee & Heb). destruct (Nat.eqb_spec eb 0) as [->|Ne].
  - cbn [bind negb]. destruct (cmp_words_ok diff rel D (ew - sw) mem (a + sw) (b + sw) M ltac:(lia) ltac:(lia)) as (r & -> & Hr). exists r. split; auto. rewrite Hr. split; intros H.
    + intros i. destruct (split64 i) as (q & t & _ & _ & -> & Ht). intros Hi. rewrite !at_qr by auto. specialize (H (q - sw)%nat t ltac:(lia) Ht). replace (a + sw + (q - sw))%nat with (a + q)%nat in H by lia. replace (b + sw + (q - sw))%nat with (b + q)%nat in H by lia. auto.
    + intros q t Hq Ht. specialize (H (64 * (sw + q) + t)%nat ltac:(lia)). rewrite !at_qr in H by auto. rewrite !Nat.add_assoc in H. auto.
  - rewrite !wrd_ok by lia. cbn [bind]. set (d := Z.land _ _). assert (W : word d). { apply word_land; [apply Dw; auto using nth_word|apply low_mask_nonneg]. }
    assert (Td : forall t, (t < 64)%nat -> tb d t = (t <? eb)%nat && negb (rel (bw mem (a + ew) t) (bw mem (b + ew) t))). { intros t Ht. unfold d. rewrite tb_land, Db, tb_low_mask by auto. apply andb_comm. }
    destruct (d =? 0) eqn:E; cbn [negb].
    + destruct (cmp_words_ok diff rel D (ew - sw) mem (a + sw) (b + sw) M ltac:(lia) ltac:(lia)) as (r & -> & Hr). exists r. split; auto. rewrite Hr. pose proof (proj1 (word_zero _ W) E) as Z0. split; intros H.
      * intros i. destruct (split64 i) as (q & t & _ & _ & -> & Ht). intros Hi. rewrite !at_qr by auto. destruct (Nat.eq_dec q ew) as [->|].
        -- specialize (Z0 t Ht). rewrite Td in Z0 by auto. destruct (Nat.ltb_spec t eb); [|lia]. now apply negb_false_iff in Z0.
        -- specialize (H (q - sw)%nat t ltac:(lia) Ht). replace (a + sw + (q - sw))%nat with (a + q)%nat in H by lia. replace (b + sw + (q - sw))%nat with (b + q)%nat in H by lia. auto.
      * intros q t Hq Ht. specialize (H (64 * (sw + q) + t)%nat ltac:(lia)). rewrite !at_qr in H by auto. rewrite !Nat.add_assoc in H. auto.
    + exists false. split; auto. split; [discriminate|]. intros H. apply (word_nonzero _ W) in E. destruct E as (t & Ht & T). rewrite Td in T by auto. apply andb_true_iff in T. destruct T as (T1 & T2). apply Nat.ltb_lt in T1. specialize (H (64 * ew + t)%nat ltac:(lia)). rewrite !at_qr in H by auto. rewrite H in T2. discriminate.
Qed.

(** views *)
Lemma word_view : forall neg w, word w -> word (view neg w). Proof. intros [] w H; cbn [view]; auto using word_cpl. Qed.
Lemma tb_view : forall neg w t, (t < 64)%nat -> tb (view neg w) t = xorb neg (tb w t).
Proof. intros [] w t H; cbn [view]; [rewrite tb_cpl by auto; now destruct (tb w t)|now destruct (tb w t)]. Qed.
(** the bits of the array seen through the view *)
Definition seen (neg : bool) (mem : list Z) (p i : nat) : bool := xorb neg (at_ mem p i).
Lemma any_words_ok : forall neg n mem w, memory mem -> (w + n <= length mem)%nat ->
  exists r, any_words neg n mem w = Ok r /\ (r = true <-> exists q t, (q < n)%nat /\ (t < 64)%nat /\ xorb neg (bw mem (w + q) t) = true).
Proof.
  intros neg. induction n; intros mem w M L; cbn [any_words].
  - exists false. split; auto. split; [discriminate|]. intros (q & t & Hq & _). lia.
  - rewrite wrd_ok by lia. cbn [bind]. pose proof (word_view neg _ (nth_word mem w M)) as W. destruct (view neg (nth w mem 0) =? 0) eqn:E; cbn [negb].
    + destruct (IHn mem (S w) M ltac:(lia)) as (r & -> & Hr). exists r. split; auto. rewrite Hr. split; intros (q & t & Hq & Ht & T).
      * exists (S q), t. split; [lia|]. split; auto. now replace (w + S q)%nat with (S w + q)%nat by lia.
      * destruct q as [|q]. -- rewrite Nat.add_0_r in T. pose proof (proj1 (word_zero _ W) E t Ht) as Z0. rewrite tb_view in Z0 by auto. unfold bw in T. congruence.
        -- exists q, t. split; [lia|]. split; auto. now replace (S w + q)%nat with (w + S q)%nat by lia.
    + exists true. split; auto. split; auto. intros _. apply (word_nonzero _ W) in E. destruct E as (t & Ht & T). exists 0%nat, t. split; [lia|]. split; auto. rewrite Nat.add_0_r. now rewrite tb_view in T.
Qed.
(** a masked word: its set bits are the seen bits of the masked positions *)
Lemma masked : forall neg mem p q s e, memory mem -> (s < 64)%nat -> (e <= 64)%nat ->
  word (Z.land (view neg (nth (p + q) mem 0)) (bits_mask s e)) /\
  forall t, (t < 64)%nat -> tb (Z.land (view neg (nth (p + q) mem 0)) (bits_mask s e)) t = (s <=? t)%nat && ((e =? 0)%nat || (t <? e)%nat) && seen neg mem p (64 * q + t).
Proof.
  intros neg mem p q s e M Hs He. split.
  - apply word_land; [apply word_view, nth_word; auto|apply bits_mask_nonneg; lia].
  - intros t Ht. rewrite tb_land, tb_view, tb_mask by auto. unfold seen. rewrite at_qr by auto. apply andb_comm.
Qed.
(** ends of a nonempty range: the last word and the number of bits of it, in the code's terms *)
Lemma range_end : forall s e, (s < e)%nat -> exists ew eb, ((e - 1) / 64 = ew)%nat /\ (e mod 64 = eb)%nat /\ (eb < 64)%nat /\ (s / 64 <= ew)%nat /\
  ((eb = 0 /\ e = 64 * ew + 64) \/ (0 < eb /\ e = 64 * ew + eb))%nat.
Proof.
  intros s e H. destruct (split64 e) as (q & r & E1 & E2 & E3 & Hr). rewrite E2. destruct r as [|r].
  - exists (q - 1)%nat, 0%nat. assert (E : ((e - 1) / 64 = q - 1)%nat). { replace (e - 1)%nat with (64 * (q - 1) + 63)%nat by lia. apply div_qr. lia. } split; auto. split; auto. split; [lia|]. split; [|left; lia]. rewrite <- E. apply Nat.div_le_mono; lia.
  - exists q, (S r). assert (E : ((e - 1) / 64 = q)%nat). { replace (e - 1)%nat with (64 * q + r)%nat by lia. apply div_qr. lia. } split; auto. split; auto. split; [lia|]. split; [|right; lia]. rewrite <- E. apply Nat.div_le_mono; lia.
Qed.
Lemma bits_some_ok : forall neg mem p s e, memory mem -> (s <= e)%nat -> array mem p e ->
  exists r, bits_some neg mem p s e = Ok r /\ (r = true <-> exists i, (s <= i < e)%nat /\ seen neg mem p i = true).
Proof.
  intros neg mem p s e M Hse L. unfold bits_some, array in *. destruct (Nat.eqb_spec s e) as [<-|N].
  - exists false. split; auto. split; [discriminate|]. intros (i & Hi & _). lia.
  - destruct (range_end s e ltac:(lia)) as (ew & eb & -> & -> & Heb & Lsw & He). destruct (split64 s) as (sw & sb & E1 & -> & Es & Hsb). rewrite E1 in *. clear E1.
    destruct (masked neg mem p sw sb eb M Hsb ltac:(lia)) as (W1 & T1). destruct (masked neg mem p sw sb 0 M Hsb ltac:(lia)) as (W2 & T2). destruct (masked neg mem p ew 0 eb M ltac:(lia) ltac:(lia)) as (W3 & T3).
    destruct (Nat.eqb_spec sw ew) as [<-|N2].
    + rewrite wrd_ok by lia. cbn [bind]. eexists. split; [reflexivity|]. rewrite negb_true_iff. rewrite (word_nonzero _ W1). split.
      * intros (t & Ht & T). rewrite T1 in T by auto. exists (64 * sw + t)%nat. apply andb_true_iff in T. destruct T as (T & Sn). apply andb_true_iff in T. destruct T as (Ta & Tb). apply Nat.leb_le in Ta. apply orb_true_iff in Tb. rewrite Nat.eqb_eq, Nat.ltb_lt in Tb. split; [lia|auto].
      * intros (i & Hi & Sn). destruct (split64 i) as (q & t & _ & _ & -> & Ht). assert (q = sw) by lia. subst q. exists t. split; auto. rewrite T1, Sn by auto. bsolve.
    + rewrite wrd_ok by lia. cbn [bind]. destruct (Z.land (view neg (nth (p + sw) mem 0)) (bits_mask sb 0) =? 0) eqn:E; cbn [negb].
      * destruct (any_words_ok neg (ew - S sw) mem (p + S sw) M ltac:(lia)) as (r & -> & Hr). cbn [bind]. destruct r.
        -- exists true. split; auto. split; auto. intros _. destruct (proj1 Hr eq_refl) as (q & t & Hq & Ht & T). exists (64 * (S sw + q) + t)%nat. split; [lia|]. unfold seen. rewrite at_qr by auto. now rewrite !Nat.add_assoc in *.
        -- rewrite wrd_ok by lia. cbn [bind]. eexists. split; [reflexivity|]. rewrite negb_true_iff, (word_nonzero _ W3). split.
           ++ intros (t & Ht & T). rewrite T3 in T by auto. exists (64 * ew + t)%nat. apply andb_true_iff in T. destruct T as (T & Sn). apply andb_true_iff in T. destruct T as (Ta & Tb). apply orb_true_iff in Tb. rewrite Nat.eqb_eq, Nat.ltb_lt in Tb. split; [lia|auto].
           ++ intros (i & Hi & Sn). destruct (split64 i) as (q & t & _ & _ & -> & Ht). destruct (Nat.eq_dec q ew) as [->|].
              ** exists t. split; auto. rewrite T3, Sn by auto. bsolve.
              ** exfalso. destruct (Nat.eq_dec q sw) as [->|]. { pose proof (proj1 (word_zero _ W2) E t Ht) as Z0. rewrite T2, Sn in Z0 by auto. revert Z0. bsolve. }
                 assert (false = true); [|discriminate]. apply Hr. exists (q - S sw)%nat, t. split; [lia|]. split; auto. unfold seen in Sn. rewrite at_qr in Sn by auto. replace (p + S sw + (q - S sw))%nat with (p + q)%nat by lia. auto.
      * exists true. split; auto. split; auto. intros _. apply (word_nonzero _ W2) in E. destruct E as (t & Ht & T). rewrite T2 in T by auto. apply andb_true_iff in T. destruct T as (T & Sn). apply andb_true_iff in T. destruct T as (Ta & _). apply Nat.leb_le in Ta. exists (64 * sw + t)%nat. split; [lia|auto].
Qed.
