(** C22: packed bit arrays behave as sequences of booleans. *)
From Coq Require Import ZArith List Bool Arith Lia.
From Verif Require Import Outcome BitsModel BitsSpec BitsProofs BitsProofs2 BitsProofs3 BitsProofs4.
Import ListNotations.
Local Open Scope nat_scope.

(** fill: exactly the bits of the range are set to b.  MISSING: a range that ends at a
    word boundary which is the end of the memory (see the refuted theorem). *)
Theorem bits_fill_partial : forall mem p s e b, memory mem -> s <= e -> p + e / 64 < length mem ->
  exists mem', bits_fill mem p s e b = Ok mem' /\ memory mem' /\ length mem' = length mem /\
    (forall i, s <= i < e -> at_ mem' p i = b) /\
    (forall k, k < 64 * p + s \/ 64 * p + e <= k -> bit mem' k = bit mem k).
Proof.
  intros mem p s e b M H L. destruct (bits_fill_ok mem p s e b M H L) as (m & E & M' & Le & B). exists m. do 3 (split; auto). unfold at_. split.
  - intros i Hi. rewrite B. unfold range. bsolve.
  - intros k Hk. rewrite B. unfold range. bsolve.
Qed.
(** (make-bitvector n) with n a multiple of 64 accesses the word after the array, and so
    does the creation of every char-set *)
Theorem make_bitvector_refuted : forall n fill, make_bitvector (64 * n) fill = UB.
Proof.
  intros n fill. unfold make_bitvector, bits_fill, num_words. assert (E0 : (64 * n) / 64 = n) by (replace (64 * n) with (64 * n + 0) by lia; apply div_qr; lia). assert (E1 : (64 * n + 64 - 1) / 64 = n) by (replace (64 * n + 64 - 1) with (64 * n + 63) by lia; apply div_qr; lia). assert (E2 : (64 * n) mod 64 = 0) by (replace (64 * n) with (64 * n + 0) by lia; apply mod_qr; lia).
  rewrite E0, E1, E2. change (0 / 64) with 0. change (0 mod 64) with 0. cbn [Nat.add]. destruct (Nat.eqb_spec 0 n) as [<-|N]; [reflexivity|].
  set (mem := repeat 0%Z n). assert (Lm : length mem = n) by apply repeat_length. assert (M : memory mem). { apply Forall_forall. intros x Hx. apply repeat_spec in Hx. subst x. apply word_0. }
  rewrite wrd_ok by lia. cbn [bind]. rewrite wwr_ok by lia. cbn [bind].
  destruct (fill_words_ok (n - 1) (upd mem 0 (if fill then Z.lor (nth 0 mem 0%Z) (cpl (low_mask 0)) else Z.land (nth 0 mem 0%Z) (low_mask 0))) 1 (if fill then ALL1 else 0%Z)) as (m2 & E & _ & L2 & _).
  - apply upd_memory; auto. destruct fill; [apply word_lor; [apply nth_word; auto|apply word_cpl, word_low_mask; lia]|apply word_land; [apply nth_word; auto|apply low_mask_nonneg]].
  - destruct fill; [apply word_ALL1|apply word_0].
  - rewrite upd_length; lia.
  - rewrite E. cbn [bind]. rewrite upd_length in L2 by lia. rewrite wrd_oob by lia. reflexivity.
Qed.
(** for other sizes the new bitvector has the requested contents *)
Theorem make_bitvector_ok_partial : forall n fill, n mod 64 <> 0 ->
  exists mem, make_bitvector n fill = Ok mem /\ memory mem /\ array mem 0 n /\ forall i, i < n -> at_ mem 0 i = fill.
Proof.
  intros n fill Hn. unfold make_bitvector, num_words. destruct (split64 n) as (q & r & E1 & E2 & E3 & Hr). rewrite E2 in Hn. assert (Nw : (n + 64 - 1) / 64 = S q) by (replace (n + 64 - 1) with (64 * S q + (r - 1)) by lia; apply div_qr; lia). rewrite Nw.
  assert (M : memory (repeat 0%Z (S q))). { apply Forall_forall. intros x Hx. apply repeat_spec in Hx. subst x. apply word_0. }
  destruct (bits_fill_partial (repeat 0%Z (S q)) 0 0 n fill M ltac:(lia)) as (m & E & M' & L & B & _). { rewrite repeat_length, E1. lia. } rewrite repeat_length in L. exists m. split; auto. split; auto. split; [unfold array; lia|]. intros i Hi. apply B. lia.
Qed.
(** copy: the target range receives the source range as it was, nothing else changes.
    MISSING: a target range that starts inside the source range, after its start. *)
Theorem bits_copy_partial : forall mem tp t sp s e, memory mem -> s <= e -> array mem tp (t + (e - s)) -> array mem sp e ->
  64 * tp + t <= 64 * sp + s \/ 64 * sp + e <= 64 * tp + t ->
  exists mem', bits_copyx mem tp t sp s e = Ok mem' /\ memory mem' /\ length mem' = length mem /\
    (forall i, i < e - s -> at_ mem' tp (t + i) = at_ mem sp (s + i)) /\
    (forall k, k < 64 * tp + t \/ 64 * tp + t + (e - s) <= k -> bit mem' k = bit mem k).
Proof.
  intros mem tp t sp s e M H L1 L2 Sf. unfold array in *. destruct (bits_copyx_ok mem tp t sp s e M H) as (m & E & M' & Le & B); try lia. { unfold forward_safe. lia. } exists m. do 3 (split; auto). unfold at_. split.
  - intros i Hi. rewrite B. unfold range. destruct (Nat.leb_spec (64 * tp + t) (64 * tp + (t + i))); [|lia]. destruct (Nat.ltb_spec (64 * tp + (t + i)) (64 * tp + t + (e - s))); [|lia]. cbn [andb]. f_equal. lia.
  - intros k Hk. rewrite B. unfold range. bsolve.
Qed.
(** (bitvector-copy! v 1 v 0 2) on #*100 gives #*111 instead of #*110 *)
Theorem bitvector_copy_overlap_refuted : exists mem mem', memory mem /\ array mem 0 3 /\ bitvector_copyx mem 0 3 1 0 3 0 2 = Ok mem' /\ at_ mem' 0 2 <> at_ mem 0 1.
Proof. exists [1%Z]. eexists. split; [repeat constructor; lia|]. split; [vm_compute; lia|]. split; [vm_compute; reflexivity|]. vm_compute. discriminate. Qed.
(** boolean operations on a range that starts at a word boundary.  MISSING: the bits after
    the range in its last word are cleared (harmless for bitvectors, whose last word has
    no other bits); ranges that start inside a word *)
Theorem bits_operate_partial : forall mem r op a b s e, memory mem -> s <= e -> s mod 64 = 0 -> array mem r e -> (uses1 op = true -> array mem a e) -> (uses2 op = true -> array mem b e) ->
  (r = a \/ 64 * r + 64 * ((e + 63) / 64) <= 64 * a + s \/ 64 * a + 64 * ((e + 63) / 64) <= 64 * r + s) ->
  (r = b \/ 64 * r + 64 * ((e + 63) / 64) <= 64 * b + s \/ 64 * b + 64 * ((e + 63) / 64) <= 64 * r + s) ->
  exists mem', bits_operate mem r op a b s e = Ok mem' /\ memory mem' /\ length mem' = length mem /\
    (forall i, s <= i < e -> at_ mem' r i = bool_op op (at_ mem a i) (at_ mem b i)) /\
    (forall k, k < 64 * r + s \/ 64 * r + 64 * ((e + 63) / 64) <= k -> bit mem' k = bit mem k) /\
    (forall i, e <= i < 64 * ((e + 63) / 64) -> at_ mem' r i = false).
Proof.
  intros mem r op a b s e M H As L1 L2 L3 S1 S2. unfold array in *. destruct (split64 s) as (sw & sb & E1 & E2 & Es & _). rewrite As in E2. subst sb.
  assert (Le : sw <= (e + 63) / 64). { rewrite <- E1. apply Nat.div_le_mono; lia. }
  apply bits_operate_ok; auto; unfold same_or_apart, nwords; rewrite E1; lia.
Qed.
(** a one-bit range in the middle of a word: other bits of the word are changed, inside
    and outside of the range's word part *)
Theorem bits_operate_refuted : exists mem mem', memory mem /\ bits_operate mem 0 BIor 1 2 1 2 = Ok mem' /\ at_ mem' 0 0 <> at_ mem 0 0 /\ at_ mem' 0 5 <> at_ mem 0 5.
Proof. exists [1; 32; 0]%Z. eexists. split; [repeat constructor; lia|]. split; [vm_compute; reflexivity|]. vm_compute. split; discriminate. Qed.
(** comparison of ranges that start at a word boundary *)
Theorem bits_equal_partial : forall mem a b s e, memory mem -> s <= e -> s mod 64 = 0 -> array mem a e -> array mem b e ->
  exists r, bits_equal mem a b s e = Ok r /\ (r = true <-> forall i, s <= i < e -> at_ mem a i = at_ mem b i).
Proof.
  intros mem a b s e M H As L1 L2. destruct (bits_cmp_ok diff_equal Bool.eqb mem a b s e diff_equal_ok M H As L1 L2) as (r & E & Hr). exists r. split; auto. rewrite Hr. split; intros X i Hi.
  - apply eqb_prop. auto. - rewrite (X i Hi). apply eqb_reflx.
Qed.
Theorem bits_includes_partial : forall mem a b s e, memory mem -> s <= e -> s mod 64 = 0 -> array mem a e -> array mem b e ->
  exists r, bits_includes mem a b s e = Ok r /\ (r = true <-> forall i, s <= i < e -> at_ mem b i = true -> at_ mem a i = true).
Proof.
  intros mem a b s e M H As L1 L2. destruct (bits_cmp_ok diff_includes _ mem a b s e diff_includes_ok M H As L1 L2) as (r & E & Hr). exists r. split; auto. rewrite Hr. split; intros X i Hi.
  - intros T. specialize (X i Hi). now rewrite T in X. - specialize (X i Hi). destruct (at_ mem b i); auto.
Qed.
(** two arrays that agree in the range [1,2) but differ at bits 0 or 5 are reported different *)
Theorem bits_equal_refuted : exists mem, memory mem /\ (forall i, 1 <= i < 2 -> at_ mem 0 i = at_ mem 1 i) /\ bits_equal mem 0 1 1 2 = Ok false.
Proof. exists [1; 32]%Z. split; [repeat constructor; lia|]. split; [|reflexivity]. intros i Hi. assert (i = 1) by lia. subst i. reflexivity. Qed.
(** any and every *)
Theorem bits_any_iff : forall mem p s e, memory mem -> s <= e -> array mem p e ->
  exists r, bits_any mem p s e = Ok r /\ (r = true <-> exists i, s <= i < e /\ at_ mem p i = true).
Proof. intros mem p s e M H L. destruct (bits_some_ok false mem p s e M H L) as (r & E & Hr). exists r. split; auto. rewrite Hr. unfold seen. split; intros (i & Hi & T); exists i; split; auto; now destruct (at_ mem p i). Qed.
Theorem bits_every_iff : forall mem p s e, memory mem -> s <= e -> array mem p e ->
  exists r, bits_every mem p s e = Ok r /\ (r = true <-> forall i, s <= i < e -> at_ mem p i = true).
Proof.
  intros mem p s e M H L. destruct (bits_some_ok true mem p s e M H L) as (r & E & Hr). unfold bits_every. rewrite E. cbn [bind]. exists (negb r). split; auto. unfold seen in Hr. split.
  - intros X i Hi. destruct (at_ mem p i) eqn:T; auto. rewrite (proj2 Hr) in X; [discriminate|]. exists i. now rewrite T.
  - intros X. destruct r; auto. destruct (proj1 Hr eq_refl) as (i & Hi & T). rewrite X in T by auto. discriminate.
Qed.
(** counting; the result is an int *)
Theorem bits_count_exact : forall mem p s e, memory mem -> s <= e -> array mem p e -> (Z.of_nat (e - s) < 2 ^ 31)%Z ->
  bits_count1 mem p s e = Ok (Z.of_nat (count_if (fun i => at_ mem p i) s (e - s))) /\
  bits_count0 mem p s e = Ok (Z.of_nat (count_if (fun i => negb (at_ mem p i)) s (e - s))).
Proof.
  intros mem p s e M H L B. unfold bits_count1, bits_count0. rewrite !bits_count_ok by auto. split; do 2 f_equal; apply count_ext; intros i Hi; unfold seen; now destruct (at_ mem p (s + i)).
Qed.
(** first one (or zero) at or after the start.  MISSING: a range of several words that
    starts inside a word some of whose earlier bits are set *)
Theorem bits_lowest_partial : forall mem p s e, memory mem -> s <= e -> array mem p e -> s / 64 = (e - 1) / 64 \/ s mod 64 = 0 ->
  (exists r, bits_lowest false mem p s e = Ok r /\ first_in (fun i => at_ mem p i) s e r) /\
  (exists r, bits_lowest true mem p s e = Ok r /\ first_in (fun i => negb (at_ mem p i)) s e r).
Proof.
  intros mem p s e M H L Al. assert (C : forall neg, s / 64 = (e - 1) / 64 \/ forall i, s - s mod 64 <= i < s -> seen neg mem p i = false). { intros neg. destruct Al as [Al|Al]; auto. right. intros i Hi. lia. }
  assert (Ext : forall f g r, (forall i, f i = g i) -> first_in f s e r -> first_in g s e r). { intros f g [k|] E; cbn [first_in]; [intros (? & ? & X)|intros X]; [split; auto; split; [rewrite <- E; auto|]|]; intros; rewrite <- E; auto. }
  split; [destruct (bits_lowest_ok false mem p s e M H L (C false)) as (r & -> & F)|destruct (bits_lowest_ok true mem p s e M H L (C true)) as (r & -> & F)]; exists r; split; auto; (eapply Ext; [|exact F]); intros i; unfold seen; now destruct (at_ mem p i).
Qed.
(** bit 0 is set and the range is [1,128): the answer is 0 *)
Theorem bits_lowest_refuted : exists mem, memory mem /\ array mem 0 128 /\ bits_lowest false mem 0 1 128 = Ok (Some 0).
Proof. exists [1; 0]%Z. split; [repeat constructor; lia|]. split; [vm_compute; lia|reflexivity]. Qed.
Theorem bits_highest_exact : forall mem p s e, memory mem -> s <= e -> array mem p e ->
  (exists r, bits_highest false mem p s e = Ok r /\ last_in (fun i => at_ mem p i) s e r) /\
  (exists r, bits_highest true mem p s e = Ok r /\ last_in (fun i => negb (at_ mem p i)) s e r).
Proof.
  intros mem p s e M H L. assert (Ext : forall f g r, (forall i, f i = g i) -> last_in f s e r -> last_in g s e r). { intros f g [k|] E; cbn [last_in]; [intros (? & ? & X)|intros X]; [split; auto; split; [rewrite <- E; auto|]|]; intros; rewrite <- E; auto. }
  split; [destruct (bits_highest_ok false mem p s e M H L) as (r & -> & F)|destruct (bits_highest_ok true mem p s e M H L) as (r & -> & F)]; exists r; split; auto; (eapply Ext; [|exact F]); intros i; unfold seen; now destruct (at_ mem p i).
Qed.

(** examples: 2 words; fill [3,70) with ones, count, search *)
Example bits_ex : exists m, bits_fill [0; 0; 0]%Z 0 3 70 true = Ok m /\ bits_count1 m 0 0 128 = Ok 67%Z /\ bits_lowest false m 0 0 128 = Ok (Some 3) /\ bits_highest false m 0 0 128 = Ok (Some 69) /\ bits_every m 0 3 70 = Ok true /\ bits_any m 0 70 128 = Ok false.
Proof. eexists. split; [vm_compute; reflexivity|]. vm_compute. auto. Qed.

Print Assumptions bits_fill_partial.
Print Assumptions make_bitvector_refuted.
Print Assumptions make_bitvector_ok_partial.
Print Assumptions bits_copy_partial.
Print Assumptions bitvector_copy_overlap_refuted.
Print Assumptions bits_operate_partial.
Print Assumptions bits_operate_refuted.
Print Assumptions bits_equal_partial.
Print Assumptions bits_includes_partial.
Print Assumptions bits_equal_refuted.
Print Assumptions bits_any_iff.
Print Assumptions bits_every_iff.
Print Assumptions bits_count_exact.
Print Assumptions bits_lowest_partial.
Print Assumptions bits_lowest_refuted.
Print Assumptions bits_highest_exact.
