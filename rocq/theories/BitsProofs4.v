From Coq Require Import ZArith List Bool Arith Lia.
From Verif Require Import Outcome BitsModel BitsSpec BitsProofs BitsProofs2 BitsProofs3.
Import ListNotations.
Local Open Scope Z_scope.
Ltac Zify.zify_post_hook ::= idtac.

Lemma masked_first : forall neg mem p q s e, memory mem -> (s < 64)%nat -> (e < 64)%nat ->
  let w := Z.land (view neg (nth (p + q) mem 0)) (bits_mask s e) in let e' := if (e =? 0)%nat then 64%nat else e in
  first_in (seen neg mem p) (64 * q + s) (64 * q + e') (if negb (w =? 0) then Some (lowest w + q * 64)%nat else None).
Proof.
  intros neg mem p q s e M Hs He w e'. destruct (masked neg mem p q s e M Hs ltac:(lia)) as (W & T). fold w in W, T. destruct (w =? 0) eqn:E; cbn [negb].
  - pose proof (proj1 (word_zero w W) E) as Z0. intros i Hi. set (t := (i - 64 * q)%nat). specialize (Z0 t ltac:(unfold t, e' in *; destruct (e =? 0)%nat; lia)). rewrite T in Z0 by (unfold t, e' in *; destruct (e =? 0)%nat; lia). replace (64 * q + t)%nat with i in Z0 by (unfold t; lia). unfold e' in Hi. revert Z0 Hi. unfold t. bsolve. all: intros; try lia; auto.
  - destruct (lowest_exists w W E) as (k & Hk). rewrite (lowest_ok w k W Hk). destruct Hk as (Hk & Tk & Bk). rewrite T in Tk by auto. apply andb_true_iff in Tk. destruct Tk as (Tk & Sk). apply andb_true_iff in Tk. destruct Tk as (Ta & Tb). apply Nat.leb_le in Ta. replace (k + q * 64)%nat with (64 * q + k)%nat by lia. split; [|split; auto].
    + unfold e'. apply orb_true_iff in Tb. destruct (Nat.eqb_spec e 0); [lia|]. destruct Tb as [Tb|Tb]; [discriminate|]. apply Nat.ltb_lt in Tb. lia.
    + intros i Hi. specialize (Bk (i - 64 * q)%nat ltac:(lia)). rewrite T in Bk by lia. replace (64 * q + (i - 64 * q))%nat with i in Bk by lia. revert Bk Tb. bsolve. all: intros; try lia; auto; try discriminate.
Qed.
Lemma masked_last : forall neg mem p q s e, memory mem -> (s < 64)%nat -> (e < 64)%nat ->
  let w := Z.land (view neg (nth (p + q) mem 0)) (bits_mask s e) in let e' := if (e =? 0)%nat then 64%nat else e in
  last_in (seen neg mem p) (64 * q + s) (64 * q + e') (if negb (w =? 0) then Some (highest w + q * 64)%nat else None).
Proof.
  intros neg mem p q s e M Hs He w e'. pose proof (masked_first neg mem p q s e M Hs He) as MF. cbn zeta in MF. fold w e' in MF. destruct (masked neg mem p q s e M Hs ltac:(lia)) as (W & T). fold w in W, T. destruct (w =? 0) eqn:E; cbn [negb] in *.
  - exact MF.
  - clear MF. destruct (highest_exists w W E) as (k & Hk). rewrite (highest_ok w k W Hk). destruct Hk as (Hk & Tk & Bk). rewrite T in Tk by auto. apply andb_true_iff in Tk. destruct Tk as (Tk & Sk). apply andb_true_iff in Tk. destruct Tk as (Ta & Tb). apply Nat.leb_le in Ta. replace (k + q * 64)%nat with (64 * q + k)%nat by lia. split; [|split; auto].
    + unfold e'. apply orb_true_iff in Tb. destruct (Nat.eqb_spec e 0); [lia|]. destruct Tb as [Tb|Tb]; [discriminate|]. apply Nat.ltb_lt in Tb. lia.
    + intros i Hi. assert (e' <= 64)%nat by (unfold e'; destruct (e =? 0)%nat; lia). specialize (Bk (i - 64 * q)%nat ltac:(lia)). rewrite T in Bk by lia. replace (64 * q + (i - 64 * q))%nat with i in Bk by lia. unfold e' in Hi. revert Bk Tb Hi. bsolve. all: intros; try lia; auto; try discriminate.
Qed.
Lemma full_mask : forall w, word w -> Z.land w (bits_mask 0 0) = w.
Proof. intros w W. apply word_ext; auto. { apply word_land; auto. apply bits_mask_nonneg. lia. } intros i Hi. rewrite tb_land, tb_mask by auto. cbn. apply andb_true_r. Qed.
Lemma word_first : forall neg mem p q, memory mem -> first_in (seen neg mem p) (64 * q) (64 * q + 64) (if negb (view neg (nth (p + q) mem 0) =? 0) then Some (lowest (view neg (nth (p + q) mem 0%Z)) + q * 64)%nat else None).
Proof. intros neg mem p q M. pose proof (masked_first neg mem p q 0 0 M ltac:(lia) ltac:(lia)) as H. cbn zeta in H. rewrite full_mask in H by (apply word_view, nth_word; auto). now rewrite Nat.add_0_r in H. Qed.
Lemma word_last : forall neg mem p q, memory mem -> last_in (seen neg mem p) (64 * q) (64 * q + 64) (if negb (view neg (nth (p + q) mem 0) =? 0) then Some (highest (view neg (nth (p + q) mem 0%Z)) + q * 64)%nat else None).
Proof. intros neg mem p q M. pose proof (masked_last neg mem p q 0 0 M ltac:(lia) ltac:(lia)) as H. cbn zeta in H. rewrite full_mask in H by (apply word_view, nth_word; auto). now rewrite Nat.add_0_r in H. Qed.
Lemma first_join : forall f a b c r1 r2, (a <= b <= c)%nat -> first_in f a b r1 -> first_in f b c r2 -> first_in f a c (match r1 with Some k => Some k | None => r2 end).
Proof.
  intros f a b c [k|] r2 Hab H1 H2; cbn [first_in] in *. - destruct H1 as (? & ? & ?). split; [lia|auto].
  - destruct r2 as [k|]; cbn [first_in] in *. + destruct H2 as (? & ? & B). split; [lia|]. split; auto. intros i Hi. destruct (Nat.ltb_spec i b); [apply H1; lia|apply B; lia]. + intros i Hi. destruct (Nat.ltb_spec i b); [apply H1; lia|apply H2; lia].
Qed.
Lemma last_join : forall f a b c r1 r2, (a <= b <= c)%nat -> last_in f a b r1 -> last_in f b c r2 -> last_in f a c (match r2 with Some k => Some k | None => r1 end).
Proof.
  intros f a b c r1 [k|] Hab H1 H2; cbn [last_in] in *. - destruct H2 as (? & ? & ?). split; [lia|auto].
  - destruct r1 as [k|]; cbn [last_in] in *. + destruct H1 as (? & ? & B). split; [lia|]. split; auto. intros i Hi. destruct (Nat.ltb_spec i b); [apply B; lia|apply H2; lia]. + intros i Hi. destruct (Nat.ltb_spec i b); [apply H1; lia|apply H2; lia].
Qed.
Lemma lowest_words_ok : forall neg n mem p w, memory mem -> (p + w + n <= length mem)%nat -> exists r, lowest_words neg n mem p w = Ok r /\ first_in (seen neg mem p) (64 * w) (64 * (w + n)) r.
Proof.
  intros neg. induction n; intros mem p w M L; cbn [lowest_words].
  - exists None. split; auto. intros i Hi. lia.
  - rewrite wrd_ok by lia. cbn [bind]. pose proof (word_first neg mem p w M) as F. destruct (view neg (nth (p + w) mem 0) =? 0) eqn:E; cbn [negb] in *.
    + destruct (IHn mem p (S w) M ltac:(lia)) as (r & -> & Hr). exists r. split; auto. replace (64 * (S w + n))%nat with (64 * (w + S n))%nat in Hr by lia. apply (first_join _ (64 * w) (64 * S w) _ None r); auto; [lia|]. now replace (64 * S w)%nat with (64 * w + 64)%nat by lia.
    + eexists. split; [reflexivity|]. destruct F as (F1 & F2 & F3). split; [lia|]. auto.
Qed.
Lemma highest_words_ok : forall neg n mem p w, memory mem -> (p + w < length mem)%nat -> (n <= S w)%nat -> exists r, highest_words neg n mem p w = Ok r /\ last_in (seen neg mem p) (64 * (S w - n)) (64 * S w) r.
Proof.
  intros neg. induction n; intros mem p w M L Hn; cbn [highest_words].
  - exists None. split; auto. intros i Hi. lia.
  - rewrite wrd_ok by lia. cbn [bind]. pose proof (word_last neg mem p w M) as F. destruct (view neg (nth (p + w) mem 0) =? 0) eqn:E; cbn [negb] in *.
    + destruct n as [|n].
      * cbn [highest_words]. exists None. split; auto. replace (64 * (S w - 1))%nat with (64 * w)%nat by lia. now replace (64 * S w)%nat with (64 * w + 64)%nat by lia.
      * destruct (IHn mem p (w - 1)%nat M ltac:(lia) ltac:(lia)) as (r & -> & Hr). exists r. split; auto. replace (64 * (S (w - 1) - S n))%nat with (64 * (S w - S (S n)))%nat in Hr by lia. replace (64 * S (w - 1))%nat with (64 * w)%nat in Hr by lia. apply (last_join _ _ (64 * w) (64 * S w) r None); auto; [lia|]. now replace (64 * S w)%nat with (64 * w + 64)%nat by lia.
    + eexists. split; [reflexivity|]. destruct F as (F1 & F2 & F3). split; [lia|]. split; auto. intros i Hi. apply F3. lia.
Qed.
(** the search upwards is right if the bits of the first word before the range are clear *)
Lemma bits_lowest_ok : forall neg mem p s e, memory mem -> (s <= e)%nat -> array mem p e ->
  (s / 64 = (e - 1) / 64 \/ forall i, (s - s mod 64 <= i < s)%nat -> seen neg mem p i = false)%nat ->
  exists r, bits_lowest neg mem p s e = Ok r /\ first_in (seen neg mem p) s e r.
Proof.
  intros neg mem p s e M Hse L Cl. unfold bits_lowest, array in *. destruct (Nat.eqb_spec s e) as [<-|N]; [exists None; split; auto; intros i Hi; lia|].
  destruct (range_end s e ltac:(lia)) as (ew & eb & Eew & -> & Heb & Lsw & He). rewrite Eew in *. clear Eew. destruct (split64 s) as (sw & sb & E1 & Esb & Es & Hsb). rewrite E1, Esb in *. clear E1 Esb.
  pose proof (masked_first neg mem p sw sb eb M Hsb Heb) as F1. pose proof (masked_first neg mem p sw sb 0 M Hsb ltac:(lia)) as F2. pose proof (masked_first neg mem p ew 0 eb M ltac:(lia) Heb) as F3. cbn zeta in *.
  replace (64 * ew + (if (eb =? 0)%nat then 64 else eb))%nat with e in F3 by bsolve. rewrite <- Es in F1, F2. cbn [Nat.eqb] in F2. rewrite Nat.add_0_r in F3. destruct (Nat.eqb_spec ew sw) as [->|N2].
  - rewrite wrd_ok by lia. cbn [bind]. eexists. split; [reflexivity|]. replace (64 * sw + (if (eb =? 0)%nat then 64 else eb))%nat with e in F1 by bsolve. exact F1.
  - rewrite wrd_ok by lia. cbn [bind]. destruct (Z.land (view neg (nth (p + sw) mem 0)) (bits_mask sb 0) =? 0) eqn:E; cbn [negb] in *.
    + destruct (lowest_words_ok neg (ew - sw) mem p sw M ltac:(lia)) as (r & -> & Hr). cbn [bind]. replace (sw + (ew - sw))%nat with ew in Hr by lia.
      assert (Hr' : first_in (seen neg mem p) s (64 * ew) r). { destruct r as [k|]; cbn [first_in] in *. - destruct Hr as (Hk & Tk & Bk). assert (s <= k)%nat. { destruct (Nat.leb_spec s k); auto. exfalso. destruct Cl as [Cl|Cl]; [lia|]. rewrite Cl in Tk by lia. discriminate. } split; [lia|]. split; auto. intros i Hi. apply Bk. lia. - intros i Hi. apply Hr. lia. }
      destruct r as [k|].
      * exists (Some k). split; auto. cbn [first_in] in *. destruct Hr' as (? & ? & ?). split; [lia|auto].
      * rewrite wrd_ok by lia. cbn [bind]. eexists. split; [reflexivity|]. refine (first_join _ s (64 * ew) e None _ _ Hr' F3). lia.
    + eexists. split; [reflexivity|]. cbn [first_in] in *. destruct F2 as (? & ? & ?). split; [lia|auto].
Qed.
Lemma bits_highest_ok : forall neg mem p s e, memory mem -> (s <= e)%nat -> array mem p e ->
  exists r, bits_highest neg mem p s e = Ok r /\ last_in (seen neg mem p) s e r.
Proof.
  intros neg mem p s e M Hse L. unfold bits_highest, array in *. destruct (Nat.eqb_spec s e) as [<-|N]; [exists None; split; auto; intros i Hi; lia|].
  destruct (range_end s e ltac:(lia)) as (ew & eb & Eew & -> & Heb & Lsw & He). rewrite Eew in *. clear Eew. destruct (split64 s) as (sw & sb & E1 & Esb & Es & Hsb). rewrite E1, Esb in *. clear E1 Esb.
  pose proof (masked_last neg mem p sw sb eb M Hsb Heb) as F1. pose proof (masked_last neg mem p sw sb 0 M Hsb ltac:(lia)) as F2. pose proof (masked_last neg mem p ew 0 eb M ltac:(lia) Heb) as F3. cbn zeta in *.
  replace (64 * ew + (if (eb =? 0)%nat then 64 else eb))%nat with e in F3 by bsolve. rewrite <- Es in F1, F2. cbn [Nat.eqb] in F2. rewrite Nat.add_0_r in F3. destruct (Nat.eqb_spec ew sw) as [->|N2].
  - rewrite wrd_ok by lia. cbn [bind]. eexists. split; [reflexivity|]. replace (64 * sw + (if (eb =? 0)%nat then 64 else eb))%nat with e in F1 by bsolve. exact F1.
  - rewrite wrd_ok by lia. cbn [bind]. destruct (Z.land (view neg (nth (p + ew) mem 0)) (bits_mask 0 eb) =? 0) eqn:E; cbn [negb] in *.
    + destruct (highest_words_ok neg (ew - 1 - sw) mem p (ew - 1) M ltac:(lia) ltac:(lia)) as (r & -> & Hr). cbn [bind]. replace (64 * (S (ew - 1) - (ew - 1 - sw)))%nat with (64 * sw + 64)%nat in Hr by lia. replace (64 * S (ew - 1))%nat with (64 * ew)%nat in Hr by lia.
      destruct r as [k|].
      * exists (Some k). split; auto. pose proof (last_join _ (64 * sw + 64) (64 * ew) e _ None ltac:(lia) Hr F3) as J. cbn [last_in] in *. destruct J as (? & ? & ?). split; [lia|auto].
      * rewrite wrd_ok by lia. cbn [bind]. eexists. split; [reflexivity|]. pose proof (last_join _ (64 * sw + 64) (64 * ew) e None None ltac:(lia) Hr F3) as J. refine (last_join _ s (64 * sw + 64) e _ None _ F2 J). lia.
    + eexists. split; [reflexivity|]. cbn [last_in] in *. destruct F3 as (? & ? & ?). split; [lia|auto].
Qed.
