From Coq Require Import ZArith List Lia Bool ZifyBool.
From Verif Require Import Utf8Model Utf8Spec.
Import ListNotations.
Local Open Scope Z_scope.
Ltac Zify.zify_post_hook ::= Z.div_mod_to_equations.

(** ** Bit-field lemmas *)
Lemma land_ones_mod x n : 0 <= n -> Z.land x (Z.ones n) = x mod 2 ^ n.
Proof. intros; apply Z.land_ones; assumption. Qed.

Lemma land_3f x : Z.land x 0x3f = x mod 64.
Proof. change 0x3f with (Z.ones 6). rewrite Z.land_ones by lia. reflexivity. Qed.
Lemma land_1f x : Z.land x 0x1f = x mod 32.
Proof. change 0x1f with (Z.ones 5). rewrite Z.land_ones by lia. reflexivity. Qed.
Lemma land_0f x : Z.land x 0x0f = x mod 16.
Proof. change 0x0f with (Z.ones 4). rewrite Z.land_ones by lia. reflexivity. Qed.
Lemma land_07 x : Z.land x 0x07 = x mod 8.
Proof. change 0x07 with (Z.ones 3). rewrite Z.land_ones by lia. reflexivity. Qed.
Lemma land_03 x : Z.land x 0x03 = x mod 4.
Proof. change 0x03 with (Z.ones 2). rewrite Z.land_ones by lia. reflexivity. Qed.
Lemma land_01 x : Z.land x 0x01 = x mod 2.
Proof. change 0x01 with (Z.ones 1). rewrite Z.land_ones by lia. reflexivity. Qed.

(** Disjoint or is addition. *)
Lemma lor_disjoint_add hi lo n :
  0 <= n -> 0 <= lo < 2 ^ n -> Z.lor (hi * 2 ^ n) lo = hi * 2 ^ n + lo.
Proof.
  intros Hn Hlo.
  assert (Z.land (hi * 2 ^ n) lo = 0) as Hd.
  { apply Z.bits_inj'. intros i Hi. rewrite Z.land_spec, Z.bits_0.
    destruct (Z.ltb_spec i n).
    - rewrite <- Z.shiftl_mul_pow2 by lia. rewrite Z.shiftl_spec_low by lia. reflexivity.
    - replace (Z.testbit lo i) with false; [apply andb_false_r|].
      symmetry. rewrite <- (Z.mod_small lo (2 ^ n)) by lia.
      apply Z.mod_pow2_bits_high. lia. }
  rewrite <- Z.lxor_lor by assumption. rewrite <- Z.add_nocarry_lxor by assumption. reflexivity.
Qed.

Lemma shl6_or a b : Z.lor (Z.shiftl a 6) (Z.land b 0x3f) = a * 64 + b mod 64.
Proof.
  rewrite land_3f, Z.shiftl_mul_pow2 by lia. change (2 ^ 6) with 64.
  change 64 with (2 ^ 6). apply lor_disjoint_add; [lia|].
  change (2 ^ 6) with 64. lia.
Qed.

Lemma lor_80 x : 0 <= x < 64 -> Z.lor x 0x80 = 128 + x.
Proof. intros. rewrite Z.lor_comm. change 0x80 with (2 * 2 ^ 6). rewrite lor_disjoint_add; change (2^6) with 64; lia. Qed.
Lemma lor_c0 x : 0 <= x < 32 -> Z.lor x 0xc0 = 192 + x.
Proof. intros. rewrite Z.lor_comm. change 0xc0 with (6 * 2 ^ 5). rewrite lor_disjoint_add; change (2^5) with 32; lia. Qed.
Lemma lor_e0 x : 0 <= x < 16 -> Z.lor x 0xe0 = 224 + x.
Proof. intros. rewrite Z.lor_comm. change 0xe0 with (14 * 2 ^ 4). rewrite lor_disjoint_add; change (2^4) with 16; lia. Qed.
Lemma lor_f0 x : 0 <= x < 8 -> Z.lor x 0xf0 = 240 + x.
Proof. intros. rewrite Z.lor_comm. change 0xf0 with (30 * 2 ^ 3). rewrite lor_disjoint_add; change (2^3) with 8; lia. Qed.
Lemma lor_f8 x : 0 <= x < 4 -> Z.lor x 0xf8 = 248 + x.
Proof. intros. rewrite Z.lor_comm. change 0xf8 with (62 * 2 ^ 2). rewrite lor_disjoint_add; change (2^2) with 4; lia. Qed.
Lemma lor_fc x : 0 <= x < 2 -> Z.lor x 0xfc = 252 + x.
Proof. intros. rewrite Z.lor_comm. change 0xfc with (126 * 2 ^ 1). rewrite lor_disjoint_add; change (2^1) with 2; lia. Qed.

Lemma cont_byte ch sh : 0 <= sh ->
  Z.lor (u8 (Z.land (Z.shiftr ch sh) 0x3f)) 0x80 = 128 + (ch / 2 ^ sh) mod 64.
Proof.
  intros H. rewrite land_3f, Z.shiftr_div_pow2 by lia. unfold u8.
  rewrite (Z.mod_small _ 256) by (pose proof (Z.mod_pos_bound (ch / 2 ^ sh) 64); lia).
  apply lor_80. apply Z.mod_pos_bound. lia.
Qed.

(** ** The encoder in arithmetic form *)
Lemma utf8_putc_arith c : valid_char c ->
  utf8_putc c =
    if c <? 0x80 then [c]
    else if c <? 0x800 then [192 + c / 64; 128 + c mod 64]
    else if c <? 0x10000 then [224 + c / 4096; 128 + (c / 64) mod 64; 128 + c mod 64]
    else if c <? 0x200000 then
      [240 + c / 262144; 128 + (c / 4096) mod 64; 128 + (c / 64) mod 64; 128 + c mod 64]
    else if c <? 0x4000000 then
      [248 + c / 16777216; 128 + (c / 262144) mod 64; 128 + (c / 4096) mod 64;
       128 + (c / 64) mod 64; 128 + c mod 64]
    else
      [252 + c / 1073741824; 128 + (c / 16777216) mod 64; 128 + (c / 262144) mod 64;
       128 + (c / 4096) mod 64; 128 + (c / 64) mod 64; 128 + c mod 64].
Proof.
  unfold valid_char. change (2 ^ 31) with 2147483648. intros Hc.
  unfold utf8_putc. rewrite !cont_byte by lia.
  change (2 ^ 0) with 1. change (2 ^ 6) with 64. change (2 ^ 12) with 4096.
  change (2 ^ 18) with 262144. change (2 ^ 24) with 16777216.
  rewrite Z.div_1_r.
  rewrite land_1f, land_0f, land_07, land_03, land_01.
  rewrite !Z.shiftr_div_pow2 by lia.
  change (2 ^ 0) with 1. change (2 ^ 6) with 64. change (2 ^ 12) with 4096.
  change (2 ^ 18) with 262144. change (2 ^ 24) with 16777216. change (2 ^ 30) with 1073741824.
  unfold u8.
  destruct (Z.ltb_spec c 0x80). { f_equal. apply Z.mod_small; lia. }
  destruct (Z.ltb_spec c 0x800).
  { assert (0 <= c / 64 < 32) by lia.
    rewrite (Z.mod_small (c / 64) 32), (Z.mod_small (c / 64) 256) by lia.
    rewrite lor_c0 by lia. reflexivity. }
  destruct (Z.ltb_spec c 0x10000).
  { assert (0 <= c / 4096 < 16) by lia.
    rewrite (Z.mod_small (c / 4096) 16), (Z.mod_small (c / 4096) 256) by lia.
    rewrite lor_e0 by lia. reflexivity. }
  destruct (Z.ltb_spec c 0x200000).
  { assert (0 <= c / 262144 < 8) by lia.
    rewrite (Z.mod_small (c / 262144) 8), (Z.mod_small (c / 262144) 256) by lia.
    rewrite lor_f0 by lia. reflexivity. }
  destruct (Z.ltb_spec c 0x4000000).
  { assert (0 <= c / 16777216 < 4) by lia.
    rewrite (Z.mod_small (c / 16777216) 4), (Z.mod_small (c / 16777216) 256) by lia.
    rewrite lor_f8 by lia. reflexivity. }
  assert (0 <= c / 1073741824 < 2) by lia.
  rewrite (Z.mod_small (c / 1073741824) 2), (Z.mod_small (c / 1073741824) 256) by lia.
  rewrite lor_fc by lia. reflexivity.
Qed.

Lemma char_put_putc c : 0 <= c -> char_put c = utf8_putc c.
Proof.
  intros H. unfold char_put. destruct (Z.leb_spec 0x80 c); [reflexivity|].
  unfold utf8_putc. destruct (Z.ltb_spec c 0x80); [reflexivity|lia].
Qed.

(** Rows of the table. *)
Definition rownum (c : Z) : nat :=
  if c <? 0x80 then 0 else if c <? 0x800 then 1 else if c <? 0x10000 then 2
  else if c <? 0x200000 then 3 else if c <? 0x4000000 then 4 else 5.

Lemma putc_row c : valid_char c -> utf8_putc c = row_encode (rownum c) c.
Proof.
  intros Hc. rewrite utf8_putc_arith by assumption.
  unfold valid_char in Hc. change (2 ^ 31) with 2147483648 in Hc.
  unfold rownum, row_encode, row_lead.
  repeat match goal with |- context [if c <? ?k then _ else _] => destruct (Z.ltb_spec c k) end;
    cbn [tail_bytes nth]; 
    change (64 ^ Z.of_nat 0) with 1; change (64 ^ Z.of_nat 1) with 64;
    change (64 ^ Z.of_nat 2) with 4096; change (64 ^ Z.of_nat 3) with 262144;
    change (64 ^ Z.of_nat 4) with 16777216; change (64 ^ Z.of_nat 5) with 1073741824;
    rewrite ?Z.div_1_r; reflexivity.
Qed.

Ltac row_limits :=
  change (row_limit 0) with 128 in *; change (row_limit 1) with 2048 in *;
  change (row_limit 2) with 65536 in *; change (row_limit 3) with 2097152 in *;
  change (row_limit 4) with 67108864 in *; change (row_limit 5) with 2147483648 in *.

Lemma rownum_least c : valid_char c ->
  (rownum c <= 5)%nat /\ c < row_limit (rownum c) /\ (forall m, (m < rownum c)%nat -> row_limit m <= c).
Proof.
  unfold valid_char. change (2 ^ 31) with 2147483648. intros Hc.
  unfold rownum.
  repeat match goal with |- context [if c <? ?k then _ else _] => destruct (Z.ltb_spec c k) end;
    (split; [lia|split; [row_limits; lia|]]);
    intros m Hm; do 6 (destruct m as [|m]; [row_limits; lia|]); lia.
Qed.

Lemma putc_encodes c : valid_char c -> utf8_encodes c (char_put c).
Proof.
  intros Hc. pose proof (rownum_least c Hc) as (H1 & H2 & H3).
  exists (rownum c). repeat split; try assumption.
  rewrite char_put_putc by (unfold valid_char in Hc; lia). apply putc_row; assumption.
Qed.

Lemma encodes_unique c bs bs' : utf8_encodes c bs -> utf8_encodes c bs' -> bs = bs'.
Proof.
  intros (n & Hn & Hc & Hmin & ->) (n' & Hn' & Hc' & Hmin' & ->).
  assert (n = n') as ->; [|reflexivity].
  destruct (Nat.lt_trichotomy n n') as [H|[H|H]]; [|assumption|].
  - specialize (Hmin' n H). lia.
  - specialize (Hmin n' H). lia.
Qed.

(** ** Decoder *)
Lemma follow_tail n : forall ch lim c rest,
  0 <= c -> ch = c / 64 ^ Z.of_nat n -> lim <= c ->
  getc_follow n ch lim (tail_bytes n c ++ rest) = Ch c.
Proof.
  induction n as [|n IH]; intros ch lim c rest Hc Hch Hlim.
  - cbn. change (64 ^ Z.of_nat 0) with 1 in Hch. rewrite Z.div_1_r in Hch. subst ch.
    destruct (Z.ltb_spec c lim); [lia|reflexivity].
  - cbn [tail_bytes app getc_follow].
    pose proof (Z.mod_pos_bound (c / 64 ^ Z.of_nat n) 64 ltac:(lia)) as Hb.
    set (d := (c / 64 ^ Z.of_nat n) mod 64) in *.
    replace ((128 + d <? 128) || (192 <=? 128 + d)) with false by lia.
    apply IH; try assumption.
    rewrite shl6_or. subst ch.
    rewrite Nat2Z.inj_succ, Z.pow_succ_r by lia.
    rewrite (Z.mul_comm 64), <- Z.div_div by lia.
    replace ((128 + d) mod 64) with d by lia. subst d. 
    pose proof (Z.div_mod (c / 64 ^ Z.of_nat n) 64). lia.
Qed.

Lemma land_lead0 n x lead mask : 
  (n = 1%nat /\ lead = 192 /\ mask = 0x1f /\ 0 <= x < 32) \/
  (n = 2%nat /\ lead = 224 /\ mask = 0x0f /\ 0 <= x < 16) \/
  (n = 3%nat /\ lead = 240 /\ mask = 0x07 /\ 0 <= x < 8) \/
  (n = 4%nat /\ lead = 248 /\ mask = 0x03 /\ 0 <= x < 4) \/
  (n = 5%nat /\ lead = 252 /\ mask = 0x01 /\ 0 <= x < 2) -> Z.land (lead + x) mask = x.
Proof.
  intros [(-> & -> & -> & H)|[(-> & -> & -> & H)|[(-> & -> & -> & H)|[(-> & -> & -> & H)|(-> & -> & -> & H)]]]];
  rewrite ?land_1f, ?land_0f, ?land_07, ?land_03, ?land_01; lia.
Qed.

Lemma getc_putc c rest : valid_char c -> utf8_getc (utf8_putc c ++ rest) = Ch c.
Proof.
  intros Hc. rewrite putc_row by assumption.
  unfold valid_char in Hc. change (2 ^ 31) with 2147483648 in Hc.
  unfold row_encode, row_lead, rownum.
  destruct (Z.ltb_spec c 0x80).
  { cbn. rewrite Z.div_1_r. destruct (Z.ltb_spec c 128); [reflexivity|lia]. }
  destruct (Z.ltb_spec c 0x800).
  { change (64 ^ Z.of_nat 1) with 64. unfold utf8_getc. cbn [app nth].
    assert (0 <= c / 64 < 32) by lia. set (q := c / 64) in *.
    replace (192 + q <? 0x80) with false by lia. replace (192 + q <? 0xc0) with false by lia.
    replace (192 + q <? 0xe0) with true by lia.
    rewrite (land_lead0 1) by (auto 10). apply follow_tail; lia. }
  destruct (Z.ltb_spec c 0x10000).
  { change (64 ^ Z.of_nat 2) with 4096. unfold utf8_getc. cbn [app nth].
    assert (0 <= c / 4096 < 16) by lia. set (q := c / 4096) in *.
    replace (224 + q <? 0x80) with false by lia. replace (224 + q <? 0xc0) with false by lia.
    replace (224 + q <? 0xe0) with false by lia. replace (224 + q <? 0xf0) with true by lia.
    rewrite (land_lead0 2) by (auto 10). apply follow_tail; lia. }
  destruct (Z.ltb_spec c 0x200000).
  { change (64 ^ Z.of_nat 3) with 262144. unfold utf8_getc. cbn [app nth].
    assert (0 <= c / 262144 < 8) by lia. set (q := c / 262144) in *.
    replace (240 + q <? 0x80) with false by lia. replace (240 + q <? 0xc0) with false by lia.
    replace (240 + q <? 0xe0) with false by lia. replace (240 + q <? 0xf0) with false by lia.
    replace (240 + q <? 0xf8) with true by lia.
    rewrite (land_lead0 3) by (auto 10). apply follow_tail; lia. }
  destruct (Z.ltb_spec c 0x4000000).
  { change (64 ^ Z.of_nat 4) with 16777216. unfold utf8_getc. cbn [app nth].
    assert (0 <= c / 16777216 < 4) by lia. set (q := c / 16777216) in *.
    replace (248 + q <? 0x80) with false by lia. replace (248 + q <? 0xc0) with false by lia.
    replace (248 + q <? 0xe0) with false by lia. replace (248 + q <? 0xf0) with false by lia.
    replace (248 + q <? 0xf8) with false by lia. replace (248 + q <? 0xfc) with true by lia.
    rewrite (land_lead0 4) by (auto 10). apply follow_tail; lia. }
  change (64 ^ Z.of_nat 5) with 1073741824. unfold utf8_getc. cbn [app nth].
  assert (0 <= c / 1073741824 < 2) by lia. set (q := c / 1073741824) in *.
  replace (252 + q <? 0x80) with false by lia. replace (252 + q <? 0xc0) with false by lia.
  replace (252 + q <? 0xe0) with false by lia. replace (252 + q <? 0xf0) with false by lia.
  replace (252 + q <? 0xf8) with false by lia. replace (252 + q <? 0xfc) with false by lia.
  replace (252 + q <? 0xfe) with true by lia.
  rewrite (land_lead0 5) by (auto 10). apply follow_tail; lia.
Qed.

Lemma char_get_getc cp : Forall is_byte cp -> char_get cp = utf8_getc cp.
Proof.
  destruct cp as [|b cp]; [reflexivity|]. intros H. inversion H; subst.
  unfold char_get. destruct (Z.leb_spec 0x80 b); [reflexivity|].
  unfold utf8_getc. destruct (Z.ltb_spec b 0x80); [reflexivity|lia].
Qed.

Lemma putc_bytes c : valid_char c -> Forall is_byte (utf8_putc c).
Proof.
  intros Hc. rewrite utf8_putc_arith by assumption.
  unfold valid_char in Hc. change (2 ^ 31) with 2147483648 in Hc.
  repeat match goal with |- context [if c <? ?k then _ else _] => destruct (Z.ltb_spec c k) end;
  repeat constructor; unfold is_byte; lia.
Qed.

Lemma char_get_putc c rest : valid_char c -> char_get (char_put c ++ rest) = Ch c.
Proof.
  intros Hc. rewrite char_put_putc by (unfold valid_char in Hc; lia).
  pose proof (getc_putc c rest Hc) as H.
  pose proof (putc_bytes c Hc) as Hb.
  destruct (utf8_putc c) as [|b bs] eqn:E.
  { rewrite putc_row in E by assumption. discriminate. }
  cbn [app] in *. unfold char_get. destruct (Z.leb_spec 0x80 b); [assumption|].
  unfold utf8_getc in H. destruct (Z.ltb_spec b 0x80); [assumption|lia].
Qed.

(** Decoder soundness: what is accepted is the shortest encoding. *)
Lemma follow_sound n : forall ch lim p c,
  Forall is_byte p -> 0 <= ch ->
  getc_follow n ch lim p = Ch c ->
  exists rest, p = tail_bytes n c ++ rest /\ c / 64 ^ Z.of_nat n = ch /\ lim <= c.
Proof.
  induction n as [|n IH]; intros ch lim p c Hp Hch H; cbn [getc_follow] in H.
  - destruct (Z.ltb_spec ch lim); [discriminate|]. inversion H; subst.
    exists p. change (64 ^ Z.of_nat 0) with 1. rewrite Z.div_1_r. auto.
  - destruct p as [|b p]; [discriminate|]. inversion Hp as [|? ? Hb Hp']; subst.
    destruct ((b <? 128) || (192 <=? b)) eqn:Eb; [discriminate|].
    rewrite shl6_or in H. unfold is_byte in Hb.
    apply IH in H; [|assumption|lia].
    destruct H as (rest & -> & Hd & Hlim).
    exists rest. cbn [tail_bytes app]. rewrite Hd.
    assert (Hm : (ch * 64 + b mod 64) mod 64 = b mod 64) by lia. rewrite Hm.
    replace (128 + b mod 64) with b by lia. split; [reflexivity|]. split; [|assumption].
    rewrite Nat2Z.inj_succ, Z.pow_succ_r by lia.
    rewrite (Z.mul_comm 64), <- Z.div_div by lia. rewrite Hd. lia.
Qed.

Lemma getc_sound bs c : Forall is_byte bs -> utf8_getc bs = Ch c ->
  valid_char c /\ exists rest, bs = utf8_putc c ++ rest.
Proof.
  intros Hb H. unfold valid_char. change (2 ^ 31) with 2147483648.
  destruct bs as [|b p]; [discriminate|]. inversion Hb as [|? ? Hb0 Hp]; subst. unfold is_byte in Hb0.
  unfold utf8_getc in H.
  destruct (Z.ltb_spec b 0x80).
  { inversion H; subst. split; [lia|]. exists p. rewrite putc_row by (unfold valid_char; change (2^31) with 2147483648; lia).
    unfold rownum. replace (c <? 128) with true by lia. unfold row_encode. cbn. rewrite Z.div_1_r. reflexivity. }
  destruct (Z.ltb_spec b 0xc0); [discriminate|].
  destruct (Z.ltb_spec b 0xe0).
  { rewrite land_1f in H. apply follow_sound in H; [|assumption|lia].
    destruct H as (rest & -> & Hd & Hl). change (64 ^ Z.of_nat 1) with 64 in Hd.
    assert (Hr : 0 <= c < 0x800) by lia. split; [lia|]. exists rest.
    rewrite putc_row by (unfold valid_char; change (2^31) with 2147483648; lia).
    unfold rownum. replace (c <? 0x80) with false by lia. replace (c <? 0x800) with true by lia.
    unfold row_encode, row_lead. change (64 ^ Z.of_nat 1) with 64. cbn [nth app]. f_equal. lia. }
  destruct (Z.ltb_spec b 0xf0).
  { rewrite land_0f in H. apply follow_sound in H; [|assumption|lia].
    destruct H as (rest & -> & Hd & Hl). change (64 ^ Z.of_nat 2) with 4096 in Hd.
    assert (Hr : 0 <= c < 0x10000) by lia. split; [lia|]. exists rest.
    rewrite putc_row by (unfold valid_char; change (2^31) with 2147483648; lia).
    unfold rownum. replace (c <? 0x80) with false by lia. replace (c <? 0x800) with false by lia.
    replace (c <? 0x10000) with true by lia.
    unfold row_encode, row_lead. change (64 ^ Z.of_nat 2) with 4096. cbn [nth app]. f_equal. lia. }
  destruct (Z.ltb_spec b 0xf8).
  { rewrite land_07 in H. apply follow_sound in H; [|assumption|lia].
    destruct H as (rest & -> & Hd & Hl). change (64 ^ Z.of_nat 3) with 262144 in Hd.
    assert (Hr : 0 <= c < 0x200000) by lia. split; [lia|]. exists rest.
    rewrite putc_row by (unfold valid_char; change (2^31) with 2147483648; lia).
    unfold rownum. replace (c <? 0x80) with false by lia. replace (c <? 0x800) with false by lia.
    replace (c <? 0x10000) with false by lia. replace (c <? 0x200000) with true by lia.
    unfold row_encode, row_lead. change (64 ^ Z.of_nat 3) with 262144. cbn [nth app]. f_equal. lia. }
  destruct (Z.ltb_spec b 0xfc).
  { rewrite land_03 in H. apply follow_sound in H; [|assumption|lia].
    destruct H as (rest & -> & Hd & Hl). change (64 ^ Z.of_nat 4) with 16777216 in Hd.
    assert (Hr : 0 <= c < 0x4000000) by lia. split; [lia|]. exists rest.
    rewrite putc_row by (unfold valid_char; change (2^31) with 2147483648; lia).
    unfold rownum. replace (c <? 0x80) with false by lia. replace (c <? 0x800) with false by lia.
    replace (c <? 0x10000) with false by lia. replace (c <? 0x200000) with false by lia.
    replace (c <? 0x4000000) with true by lia.
    unfold row_encode, row_lead. change (64 ^ Z.of_nat 4) with 16777216. cbn [nth app]. f_equal. lia. }
  destruct (Z.ltb_spec b 0xfe); [|discriminate].
  rewrite land_01 in H. apply follow_sound in H; [|assumption|lia].
  destruct H as (rest & -> & Hd & Hl). change (64 ^ Z.of_nat 5) with 1073741824 in Hd.
  assert (Hr : 0 <= c < 2147483648) by lia. split; [lia|]. exists rest.
  rewrite putc_row by (unfold valid_char; change (2^31) with 2147483648; lia).
  unfold rownum. replace (c <? 0x80) with false by lia. replace (c <? 0x800) with false by lia.
  replace (c <? 0x10000) with false by lia. replace (c <? 0x200000) with false by lia.
  replace (c <? 0x4000000) with false by lia.
  unfold row_encode, row_lead. change (64 ^ Z.of_nat 5) with 1073741824. cbn [nth app]. f_equal. lia.
Qed.

(** ** Sizes *)
Lemma length_tail n c : length (tail_bytes n c) = n.
Proof. induction n; cbn; congruence. Qed.

Lemma putc_length c : valid_char c -> Z.of_nat (length (utf8_putc c)) = nbytes c.
Proof.
  intros Hc. rewrite putc_row by assumption. unfold row_encode. cbn [length]. rewrite length_tail.
  unfold rownum, nbytes.
  repeat match goal with |- context [if c <? ?k then _ else _] => destruct (Z.ltb_spec c k) end; reflexivity.
Qed.

(** The size table, row by row (finite sweep over all 256 bytes). *)
Definition nfollows_spec (b : Z) : Z :=
  if b <? 0xc0 then 0 else if b <? 0xe0 then 1 else if b <? 0xf0 then 2
  else if b <? 0xf8 then 3 else if b <? 0xfc then 4 else if b <? 0xfe then 5 else 0.

Lemma nfollows_rows b : is_byte b -> nfollows b = nfollows_spec b.
Proof.
  intros Hb.
  assert (H : forallb (fun n => nfollows (Z.of_nat n) =? nfollows_spec (Z.of_nat n)) (seq 0 256) = true)
    by (vm_compute; reflexivity).
  rewrite forallb_forall in H. specialize (H (Z.to_nat b)).
  unfold is_byte in Hb. rewrite Z2Nat.id in H by lia. apply Z.eqb_eq, H.
  apply in_seq. lia.
Qed.

Lemma nfollows_putc c : valid_char c ->
  exists b bs, utf8_putc c = b :: bs /\ is_byte b /\ nfollows b = Z.of_nat (length bs) /\ nfollows b = nbytes c - 1.
Proof.
  intros Hc. pose proof (putc_length c Hc) as Hl. pose proof (putc_bytes c Hc) as Hb.
  rewrite putc_row in * by assumption. unfold row_encode in *.
  eexists _, _. split; [reflexivity|]. inversion Hb as [|? ? Hb0 Hb1]; subst. split; [assumption|].
  rewrite nfollows_rows by assumption.
  assert (nfollows_spec (row_lead (rownum c) + c / 64 ^ Z.of_nat (rownum c)) = Z.of_nat (rownum c)) as E.
  { clear Hb Hl Hb0 Hb1. unfold valid_char in Hc. change (2 ^ 31) with 2147483648 in Hc.
    unfold rownum, row_lead, nfollows_spec.
    repeat match goal with |- context [if c <? ?k then _ else _] => destruct (Z.ltb_spec c k) end; cbn [nth];
    change (64 ^ Z.of_nat 0) with 1; change (64 ^ Z.of_nat 1) with 64;
    change (64 ^ Z.of_nat 2) with 4096; change (64 ^ Z.of_nat 3) with 262144;
    change (64 ^ Z.of_nat 4) with 16777216; change (64 ^ Z.of_nat 5) with 1073741824;
    repeat match goal with |- context [if ?x <? ?k then _ else _] => destruct (Z.ltb_spec x k) end; lia. }
  rewrite E. cbn [length] in Hl. rewrite length_tail in *. lia.
Qed.

(** The decoder never reads beyond the bytes announced by the first one. *)
Lemma follow_no_oob n : forall ch lim p, (n <= length p)%nat -> getc_follow n ch lim p <> Oob.
Proof.
  induction n as [|n IH]; intros ch lim p Hl; cbn [getc_follow].
  - destruct (ch <? lim); discriminate.
  - destruct p as [|b p]; [cbn in Hl; lia|].
    destruct ((b <? 128) || (192 <=? b)); [discriminate|]. apply IH. cbn in Hl; lia.
Qed.

Lemma getc_no_oob b p : is_byte b -> nfollows b <= Z.of_nat (length p) -> utf8_getc (b :: p) <> Oob.
Proof.
  intros Hb. rewrite nfollows_rows by assumption. unfold nfollows_spec, utf8_getc.
  destruct (Z.ltb_spec b 0x80); [discriminate|].
  destruct (Z.ltb_spec b 0xc0); [discriminate|].
  destruct (Z.ltb_spec b 0xe0); [intros; apply follow_no_oob; lia|].
  destruct (Z.ltb_spec b 0xf0); [intros; apply follow_no_oob; lia|].
  destruct (Z.ltb_spec b 0xf8); [intros; apply follow_no_oob; lia|].
  destruct (Z.ltb_spec b 0xfc); [intros; apply follow_no_oob; lia|].
  destruct (Z.ltb_spec b 0xfe); [intros; apply follow_no_oob; lia|]. discriminate.
Qed.
