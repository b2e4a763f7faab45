(** Bignum multiplication. *)
From Coq Require Import List Bool ZArith Lia.
From Verif Require Import Outcome BignumModel IntSpec BignumProofs BignumProofs2.
Import ListNotations.
Local Open Scope Z_scope.
Ltac Zify.zify_post_hook ::= idtac.

(** adding a carry at word j, with room for the result *)
Lemma mul_carry_ok : forall n br j c, Forall word br -> bit01 c -> (length br - j <= n)%nat ->
  value br + c * W ^ Z.of_nat j < W ^ Z.of_nat (length br) ->
  exists r, mul_carry n br j c = Ok r /\ length r = length br /\ Forall word r /\ value r = value br + c * W ^ Z.of_nat j.
Proof.
  induction n; intros br j c F Hc Hn Hb.
  { cbn [mul_carry]. exists br. repeat split; auto. destruct Hc as [->| ->]; [lia|]. exfalso.
    assert (W ^ Z.of_nat (length br) <= W ^ Z.of_nat j) by (apply Z.pow_le_mono_r; [reflexivity|lia]). pose proof (value_bound br F). lia. }
  cbn [mul_carry]. destruct (Z.eqb_spec c 0) as [->|Nc]; cbn [orb]. { exists br. repeat split; auto; lia. }
  assert (c = 1) by (destruct Hc; auto; contradiction). subst c.
  destruct (Nat.ltb_spec j (length br)) as [L|L]; cbn [negb].
  2: { exfalso. assert (W ^ Z.of_nat (length br) <= W ^ Z.of_nat j) by (apply Z.pow_le_mono_r; [reflexivity|lia]). pose proof (value_bound br F). lia. }
  rewrite rd_ok by auto. cbn [bind]. destruct (uadd_ok 1 (nth j br 0) 0 (word_nth _ _ F) word0 (or_intror eq_refl)) as (r1 & c1 & E & Wr & B & V). rewrite E.
  rewrite wr_ok by auto. cbn [bind].
  assert (Vu : value (upd br j r1) + c1 * W ^ Z.of_nat (S j) = value br + 1 * W ^ Z.of_nat j).
  { rewrite value_upd by auto. rewrite Wpow_S. replace r1 with (nth j br 0 + 0 + 1 - W * c1) by lia. ring. }
  destruct (IHn (upd br j r1) (S j) c1) as (r & E2 & L2 & F2 & V2); rewrite ?upd_length in *; auto; try lia. { apply upd_words; auto. }
  exists r. repeat split; auto. lia.
Qed.
Lemma value_mono_bound : forall (a b : nat), (a <= b)%nat -> W ^ Z.of_nat a <= W ^ Z.of_nat b.
Proof. intros. apply Z.pow_le_mono_r; [reflexivity|lia]. Qed.
Lemma mul_word_ok : forall xs br y p, Forall word xs -> Forall word br -> word y ->
  (p + length xs < length br)%nat ->
  value br + value xs * y * W ^ Z.of_nat p < W ^ Z.of_nat (length br) ->
  exists r, mul_word br xs y p = Ok r /\ length r = length br /\ Forall word r /\ value r = value br + value xs * y * W ^ Z.of_nat p.
Proof.
  induction xs as [|x t IH]; intros br y p Fx Fb Hy Hl Hb; cbn [mul_word].
  { exists br. repeat split; auto. cbn [value]. lia. }
  inversion Fx; subst. cbn [length] in Hl. destruct (umul_ok x y H1 Hy) as (h & l & -> & Wh & Wl & Vm).
  rewrite rd_ok by lia. cbn [bind]. destruct (uadd_ok 0 (nth p br 0) l (word_nth _ _ Fb) Wl (or_introl eq_refl)) as (r1 & c1 & -> & Wr1 & B1 & V1).
  rewrite wr_ok by lia. cbn [bind]. rewrite rd_ok by (rewrite upd_length; lia). cbn [bind].
  assert (Fu : Forall word (upd br p r1)) by now apply upd_words.
  destruct (uadd_ok c1 (nth (S p) (upd br p r1) 0) h (word_nth _ _ Fu) Wh B1) as (r3 & c2 & -> & Wr3 & B2 & V2).
  rewrite wr_ok by (rewrite upd_length; lia). cbn [bind].
  set (br2 := upd (upd br p r1) (S p) r3).
  assert (Fu2 : Forall word br2) by now apply upd_words.
  assert (L2 : length br2 = length br) by (unfold br2; rewrite !upd_length; auto).
  assert (Vb : value br2 + c2 * W ^ Z.of_nat (p + 2) = value br + x * y * W ^ Z.of_nat p).
  { unfold br2. rewrite value_upd by (rewrite upd_length; lia). rewrite value_upd by lia. replace (p + 2)%nat with (S (S p)) by lia. rewrite !Wpow_S, <- Vm.
    replace r3 with (nth (S p) (upd br p r1) 0 + h + c1 - W * c2) by lia. replace r1 with (nth p br 0 + l + 0 - W * c1) at 1 by lia. ring. }
  rewrite value_cons in Hb. pose proof (Wpow_pos p). pose proof (value_bound t H2) as Bt. unfold word in *.
  assert (P1 : 0 <= value t * y * W ^ Z.of_nat (S p)). { pose proof (Wpow_pos (S p)). apply Z.mul_nonneg_nonneg; [apply Z.mul_nonneg_nonneg|]; lia. }
  assert (Eq : (x + W * value t) * y * W ^ Z.of_nat p = x * y * W ^ Z.of_nat p + value t * y * W ^ Z.of_nat (S p)) by (rewrite Wpow_S; ring).
  rewrite Eq in Hb. clear Vm V1 V2.
  set (A := x * y * W ^ Z.of_nat p) in *. set (B := value t * y * W ^ Z.of_nat (S p)) in *. set (C := c2 * W ^ Z.of_nat (p + 2)) in *. set (D := W ^ Z.of_nat (length br)) in *.
  destruct (mul_carry_ok (length br) br2 (p + 2) c2 Fu2 B2) as (br3 & -> & L3 & F3 & V3). { rewrite L2. lia. } { rewrite L2. fold C D. clearbody A B C D. lia. }
  fold C in V3. cbn [bind]. destruct (IH br3 y (S p)) as (r & E & L & F & V); auto. { rewrite L3, L2. lia. } { rewrite L3, L2. fold B D. clearbody A B C D. lia. }
  exists r. split; auto. split; [congruence|]. split; auto. rewrite V, value_cons, Eq, V3. fold A B. clearbody A B C D. lia.
Qed.
Lemma mul_loop_ok : forall ys br xs off, Forall word xs -> Forall word ys -> Forall word br ->
  (off + length ys + length xs = length br)%nat -> xs <> [] ->
  value br < W ^ Z.of_nat (off + length xs) ->
  exists r, mul_loop br xs ys off = Ok r /\ length r = length br /\ Forall word r /\ value r = value br + value xs * value ys * W ^ Z.of_nat off.
Proof.
  induction ys as [|y t IH]; intros br xs off Fx Fy Fb Hl Nx Hb; cbn [mul_loop].
  { exists br. repeat split; auto. cbn [value]. lia. }
  inversion Fy; subst. cbn [length] in Hl.
  pose proof (value_bound xs Fx) as Bx. pose proof (value_bound br Fb) as Bb.
  assert (Bd : value br + value xs * y * W ^ Z.of_nat off < W ^ Z.of_nat (S off + length xs)).
  { replace (S off + length xs)%nat with (S (off + length xs)) by lia. rewrite Wpow_S. rewrite Nat2Z.inj_add, Z.pow_add_r in * by lia.
    set (P := W ^ Z.of_nat off) in *. set (Q := W ^ Z.of_nat (length xs)) in *. assert (0 < P) by apply Wpow_pos. assert (0 < Q) by apply Wpow_pos. unfold word in H1.
    assert (value xs * y <= (Q - 1) * (W - 1)) by (apply Z.mul_le_mono_nonneg; lia).
    assert (value xs * y * P <= (Q - 1) * (W - 1) * P) by (apply Z.mul_le_mono_nonneg_r; lia).
    assert (0 < P * W) by (apply Z.mul_pos_pos; auto). replace (W * (P * Q)) with ((Q - 1) * (W - 1) * P + (P * Q) + (P * W - P)) by ring. nia. }
  destruct (mul_word_ok xs br y off Fx Fb H1) as (br1 & -> & L1 & F1 & V1). { clear - Hl. lia. }
  { pose proof (value_mono_bound (S off + length xs) (length br) ltac:(lia)). lia. }
  cbn [bind]. destruct (IH br1 xs (S off)) as (r & E & L & F & V); auto. { clear - Hl L1. lia. } { rewrite V1. exact Bd. }
  exists r. split; auto. split; [congruence|]. split; auto. rewrite V, V1, value_cons, Wpow_S. ring.
Qed.
Lemma mul_raw_ok : forall bx by_, wfb bx -> wfb by_ -> nw bx + nw by_ <= MAX_DIGITS ->
  exists r, bignum_mul_raw bx by_ = Ok r /\ wfb r /\ bval r = bval bx * bval by_.
Proof.
  intros [sx xs] [sy ys] (Sx & Fx & Nx) (Sy & Fy & Ny) L. unfold bignum_mul_raw, wfb, bval, nw in *. cbn [sign words] in *.
  rewrite make_bignum_ok by lia. cbn [bind].
  destruct (mul_loop_ok ys (repeat 0 (length xs + length ys)) xs 0 Fx Fy (Forall_repeat0 _)) as (r & -> & Lr & F & V); auto.
  { rewrite repeat_length. lia. } { rewrite value_repeat0. apply Wpow_pos. }
  cbn [bind]. eexists; split; [reflexivity|]. cbn [sign words]. rewrite repeat_length in Lr. split.
  - split; [destruct Sx, Sy; subst; lia|]. split; auto. intros ->. destruct xs; [contradiction|cbn in Lr; lia].
  - rewrite V, value_repeat0. cbn [Z.of_nat]. rewrite Z.pow_0_r. ring.
Qed.

(** the lowest bit of a power of two *)
Lemma lowest_bit_pow2 : forall n, (n < 64)%nat -> lowest_bit_number (2 ^ Z.of_nat n) = Z.of_nat n.
Proof.
  assert (H : forallb (fun n => lowest_bit_number (2 ^ Z.of_nat n) =? Z.of_nat n) (seq 0 64) = true) by (vm_compute; reflexivity).
  intros n Hn. rewrite forallb_forall in H. apply Z.eqb_eq. apply H. apply in_seq. lia.
Qed.
(** y & (y-1) = 0 exactly for zero and powers of two *)
Lemma land_pred_pow2 : forall y, 0 < y -> Z.land y (y - 1) = 0 -> y = 2 ^ Z.log2 y.
Proof.
  intros y Hy E. destruct (Z.log2_spec y Hy) as [L U]. set (k := Z.log2 y) in *. pose proof (Z.log2_nonneg y). fold k in H.
  destruct (Z.eq_dec y (2 ^ k)) as [|N]; auto. exfalso.
  assert (T : Z.testbit (y - 1) k = true).
  { rewrite Z.testbit_true by lia. assert (y - 1 = 2 ^ k * 1 + (y - 1 - 2 ^ k)) by lia. rewrite <- (Z.div_unique (y - 1) (2 ^ k) 1 (y - 1 - 2 ^ k)); try reflexivity; try lia.
    left. rewrite Z.pow_succ_r in U by lia. lia. }
  assert (T2 : Z.testbit y k = true) by (apply Z.bit_log2; lia).
  assert (Z.testbit (Z.land y (y - 1)) k = true) by now rewrite Z.land_spec, T, T2. rewrite E, Z.bits_0 in H0. discriminate.
Qed.
Lemma land_pred_neg : forall y, y < 0 -> Z.land y (y - 1) <> 0.
Proof. intros y Hy E. assert (Z.land y (y - 1) < 0) by (apply Z.land_neg; lia). lia. Qed.
Lemma mul_si_raw_ok : forall b y, wfb b -> nw b < MAX_DIGITS -> y <> 0 -> -2305843009213693952 <= y <= 2305843009213693951 ->
  exists r, bignum_mul_si_raw b y = Ok r /\ wfb r /\ bval r = bval b * y.
Proof.
  intros [s ws] y (S & F & N) L Y0 Yb. unfold bignum_mul_si_raw, wfb, bval, nw in *. cbn [sign words] in *.
  destruct (Z.eqb_spec y (-1)) as [->|Y1]. { eexists; split; [reflexivity|]. cbn [sign words]. repeat split; auto; lia. }
  rewrite make_bignum_ok by lia. cbn [bind]. pose proof (value_bound ws F) as Bv. pose proof W_big as HW0.
  destruct (Z.eqb_spec (Z.land y (y - 1)) 0) as [E|E]; cbn [negb].
  - assert (Yp : 0 < y). { destruct (Z.ltb_spec 0 y); auto. exfalso. apply (land_pred_neg y); auto. lia. }
    pose proof (land_pred_pow2 y Yp E) as Ey. pose proof (Z.log2_nonneg y) as Hk.
    assert (Hk2 : Z.log2 y < 61) by (apply Z.log2_lt_pow2; [lia|]; change (2 ^ 61) with 2305843009213693952; lia).
    rewrite uwrap_small by lia.
    assert (El : lowest_bit_number y = Z.log2 y).
    { rewrite Ey at 1. rewrite <- (Z2Nat.id (Z.log2 y)) by lia. apply lowest_bit_pow2. lia. }
    rewrite El. destruct (lshift_ok (Datatypes.S (length ws)) ws (Z.log2 y) F N Hk) as (r & -> & Lr & Fr & Vr).
    { rewrite Z.div_small by lia. lia. }
    cbn [bind]. eexists; split; [reflexivity|]. cbn [sign words]. split. { repeat split; auto. intros X; rewrite X in Lr; discriminate. }
    rewrite Vr, <- Ey, Wpow_S, Z.mod_small; [ring|]. split; [apply Z.mul_nonneg_nonneg; lia|]. rewrite Z.mul_comm. apply Z.mul_lt_mono_nonneg; lia.
  - assert (Ya : uwrap (if y <? 0 then - y else y) = Z.abs y) by (rewrite uwrap_small; destruct (Z.ltb_spec y 0); lia).
    rewrite Ya. destruct (mul_word_ok ws (repeat 0 (Datatypes.S (length ws))) (Z.abs y) 0 F (Forall_repeat0 _)) as (r & -> & Lr & Fr & Vr).
    { unfold word; lia. } { rewrite repeat_length. lia. }
    { rewrite value_repeat0, repeat_length. change (Z.of_nat 0) with 0. rewrite Z.pow_0_r, Wpow_S. rewrite Z.mul_1_r, Z.add_0_l, Z.mul_comm. apply Z.mul_lt_mono_nonneg; lia. }
    cbn [bind]. eexists; split; [reflexivity|]. cbn [sign words]. rewrite repeat_length in Lr. split.
    { split; [destruct (y <? 0); lia|]. split; auto. intros X; rewrite X in Lr; discriminate. }
    rewrite Vr, value_repeat0. cbn [Z.of_nat]. rewrite Z.pow_0_r. destruct (Z.ltb_spec y 0); [rewrite Z.abs_neq by lia|rewrite Z.abs_eq by lia]; ring.
Qed.
