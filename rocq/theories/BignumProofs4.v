(** Long division (Knuth's algorithm D on half words). *)
From Coq Require Import List Bool ZArith Lia.
From Verif Require Import Outcome BignumModel IntSpec BignumProofs BignumProofs2.
Import ListNotations.
Local Open Scope Z_scope.
Ltac Zify.zify_post_hook ::= idtac.

Definition P (n : nat) : Z := HW ^ Z.of_nat n.
Lemma P_pos : forall n, 0 < P n. Proof. intros. apply Z.pow_pos_nonneg; [reflexivity|lia]. Qed.
Lemma P_0 : P 0 = 1. Proof. reflexivity. Qed.
Lemma P_S : forall n, P (S n) = HW * P n. Proof. intros. unfold P. rewrite Nat2Z.inj_succ, Z.pow_succ_r by lia. reflexivity. Qed.
Lemma P_add : forall a b, P (a + b) = P a * P b. Proof. intros. unfold P. rewrite Nat2Z.inj_add, Z.pow_add_r by lia. reflexivity. Qed.
Lemma P_W : forall k, W ^ Z.of_nat k = P (2 * k).
Proof. intros. unfold P. rewrite W_HW, <- Z.pow_2_r, <- Z.pow_mul_r by lia. f_equal. lia. Qed.
Lemma P_1 : P 1 = HW. Proof. reflexivity. Qed.
Lemma P_2 : P 2 = W. Proof. reflexivity. Qed.
Global Opaque P.

Lemma div2_odd : forall n, n = (2 * Nat.div2 n + (if Nat.odd n then 1 else 0))%nat.
Proof. intros. pose proof (Nat.div2_odd n). destruct (Nat.odd n); cbn [Nat.b2n] in *; lia. Qed.

Definition dg (V : Z) (n : nat) : Z := V / P n mod HW.
Definition dg2 (V : Z) (n : nat) : Z := V / P n mod W.
Lemma dg_half : forall V n, half (dg V n). Proof. intros. apply Z.mod_pos_bound. reflexivity. Qed.
Lemma dg2_word : forall V n, word (dg2 V n). Proof. intros. apply Z.mod_pos_bound. reflexivity. Qed.
Lemma dg2_split : forall V n, dg2 V n = dg V n + HW * dg V (S n).
Proof.
  intros. unfold dg2, dg. rewrite W_HW, Z.rem_mul_r by (try reflexivity; discriminate). rewrite P_S, (Z.mul_comm HW (P n)), <- Z.div_div by (pose proof (P_pos n); pose proof HW_pos; lia). reflexivity.
Qed.
Lemma word_dg : forall ws k, Forall word ws -> lo (nth k ws 0) = dg (value ws) (2 * k) /\ hi (nth k ws 0) = dg (value ws) (2 * k + 1) /\ nth k ws 0 = dg2 (value ws) (2 * k).
Proof.
  intros ws k F. assert (E : nth k ws 0 = dg2 (value ws) (2 * k)) by (unfold dg2; rewrite <- P_W; now apply nth_value).
  rewrite hi_div by now apply word_nth. rewrite lo_mod, E, dg2_split. replace (S (2 * k)) with (2 * k + 1)%nat by lia.
  pose proof (dg_half (value ws) (2 * k)) as A. unfold half in A. repeat split.
  - rewrite Z.mul_comm, Z.mod_add by discriminate. now apply Z.mod_small.
  - rewrite Z.mul_comm, Z.div_add, Z.div_small by (discriminate || auto). lia.
Qed.
Lemma digit_ok : forall ws n, Forall word ws -> (n < 2 * length ws)%nat -> digit ws n = Ok (dg (value ws) n).
Proof.
  intros ws n F H. unfold digit. pose proof (div2_odd n) as E. rewrite rd_ok by (destruct (Nat.odd n); lia). cbn [bind].
  destruct (word_dg ws (Nat.div2 n) F) as (A & B & _). destruct (Nat.odd n); rewrite ?A, ?B; f_equal; f_equal; lia.
Qed.
Lemma digit2_ok : forall ws n, Forall word ws -> (S n < 2 * length ws)%nat -> digit2 ws n = Ok (dg2 (value ws) n).
Proof.
  intros ws n F H. unfold digit2. pose proof (div2_odd n) as E. rewrite rd_ok by (destruct (Nat.odd n); lia). cbn [bind].
  destruct (word_dg ws (Nat.div2 n) F) as (A & B & C). destruct (Nat.odd n) eqn:O.
  - rewrite rd_ok by lia. cbn [bind]. destruct (word_dg ws (S (Nat.div2 n)) F) as (A2 & _ & _). rewrite A2, B.
    rewrite dg2_split. replace (2 * S (Nat.div2 n))%nat with (S n) by lia. replace (2 * Nat.div2 n + 1)%nat with n by lia.
    unfold ushl. rewrite Z.shiftl_mul_pow2 by lia. pose proof (dg_half (value ws) n) as X. pose proof (dg_half (value ws) (S n)) as Y.
    rewrite uwrap_small. { rewrite lor_disjoint by (try lia; exact X). rewrite HW_pow. f_equal. lia. }
    pose proof (half_join _ 0 Y ltac:(unfold half; pose proof HW_pos; lia)). unfold word in H0. rewrite HW_pow. lia.
  - rewrite C. f_equal. f_equal. lia.
Qed.
(** replacing a digit / a double digit *)
Lemma land_himask : forall w, word w -> Z.land w HIMASK = hi w * HW.
Proof.
  intros w Hw. change HIMASK with (Z.shiftl (Z.ones 32) 32). rewrite hi_div by auto.
  apply Z.bits_inj'. intros i Hi. rewrite Z.land_spec. destruct (Z.ltb_spec i 32).
  - rewrite Z.shiftl_spec_low by lia. rewrite andb_false_r. rewrite <- HW_pow, Z.mul_pow2_bits_low by lia. reflexivity.
  - rewrite Z.shiftl_spec by lia. rewrite <- HW_pow at 2. rewrite Z.mul_pow2_bits by lia. rewrite <- HW_pow, Z.div_pow2_bits by lia. replace (i - 32 + 32) with i by lia.
    destruct (Z.ltb_spec i 64).
    + rewrite Z.ones_spec_low by lia. apply andb_true_r.
    + rewrite Z.ones_spec_high by lia. rewrite andb_false_r. symmetry. destruct (Z.eq_dec w 0) as [->|N0]; [apply Z.bits_0|]. unfold word in Hw.
      apply Z.bits_above_log2; [lia|]. assert (Z.log2 w < 64) by (apply Z.log2_lt_pow2; [lia|]; rewrite W_pow; lia). lia.
Qed.
Lemma lor_half : forall a b, half b -> Z.lor (a * HW) b = a * HW + b.
Proof. intros a b H. rewrite <- HW_pow. apply lor_disjoint; [lia|]. exact H. Qed.
Lemma ushl32 : forall v, ushl v 32 = (v mod HW) * HW. Proof. intros. rewrite ushl_mod by lia. reflexivity. Qed.
Lemma setdigit_ok : forall ws n v, Forall word ws -> (n < 2 * length ws)%nat -> exists r, setdigit ws n v = Ok r /\ length r = length ws /\ Forall word r
  /\ value r = value ws + (v mod HW - dg (value ws) n) * P n.
Proof.
  intros ws n v F H. unfold setdigit. pose proof (div2_odd n) as E. set (k := Nat.div2 n) in *. assert (K : (k < length ws)%nat) by (destruct (Nat.odd n); lia).
  rewrite rd_ok by auto. cbn [bind]. rewrite wr_ok by auto. eexists; split; [reflexivity|]. rewrite upd_length. split; auto.
  pose proof (word_nth ws k F) as Wk. destruct (word_dg ws k F) as (A & B & C). pose proof (hi_lo _ Wk) as HL. set (w := nth k ws 0) in *.
  pose proof (lo_half w) as Lh. pose proof (hi_half w) as Hh. assert (Vh : half (v mod HW)) by (apply Z.mod_pos_bound; reflexivity).
  destruct (Nat.odd n) eqn:O.
  - rewrite ushl32. rewrite land_lomask, <- lo_mod, Z.lor_comm, lor_half by auto. split. { apply upd_words; auto. now apply half_join. }
    rewrite value_upd, P_W by auto. fold w. replace (P n) with (HW * P (2 * k)) by (rewrite <- P_S; f_equal; lia).
    replace (dg (value ws) n) with (hi w) by (rewrite B; f_equal; lia). replace w with (hi w * HW + lo w) at 2 by lia. ring.
  - rewrite land_lomask, land_himask, lor_half by auto. split. { apply upd_words; auto. now apply half_join. }
    rewrite value_upd, P_W by auto. fold w. replace (P n) with (P (2 * k)) by (f_equal; lia).
    replace (dg (value ws) n) with (lo w) by (rewrite A; f_equal; lia). replace w with (hi w * HW + lo w) at 2 by lia. ring.
Qed.
Lemma setdigit2_ok : forall ws n v, Forall word ws -> (S n < 2 * length ws)%nat -> word v -> exists r, setdigit2 ws n v = Ok r /\ length r = length ws /\ Forall word r
  /\ value r = value ws + (v - dg2 (value ws) n) * P n.
Proof.
  intros ws n v F H Hv. unfold setdigit2. pose proof (div2_odd n) as E. set (k := Nat.div2 n) in *. assert (K : (k < length ws)%nat) by (destruct (Nat.odd n); lia).
  destruct (Nat.odd n) eqn:O.
  - rewrite rd_ok by auto. cbn [bind]. rewrite wr_ok by auto. cbn [bind]. rewrite rd_ok by (rewrite upd_length; lia). cbn [bind].
    rewrite wr_ok by (rewrite upd_length; lia). eexists; split; [reflexivity|]. rewrite !upd_length. split; auto.
    rewrite nth_upd by auto. rewrite (proj2 (Nat.eqb_neq _ _)) by lia.
    pose proof (word_nth ws k F) as Wk. pose proof (word_nth ws (S k) F) as Wk1. destruct (word_dg ws k F) as (A & B & C). destruct (word_dg ws (S k) F) as (A1 & B1 & C1).
    pose proof (hi_lo _ Wk) as HL. pose proof (hi_lo _ Wk1) as HL1. set (w := nth k ws 0) in *. set (w1 := nth (S k) ws 0) in *.
    pose proof (lo_half w) as Lh. pose proof (hi_half w) as Hh. pose proof (lo_half w1) as Lh1. pose proof (hi_half w1) as Hh1. pose proof (hi_half v) as Vh. pose proof (lo_half v) as Vl.
    rewrite ushl32, <- lo_mod, Z.lor_comm, (lor_half (lo v)), land_himask, lor_half by auto.
    split. { apply upd_words; [apply upd_words; auto; now apply half_join|]. now apply half_join. }
    rewrite value_upd by (rewrite upd_length; lia). rewrite nth_upd by auto. rewrite (proj2 (Nat.eqb_neq _ _)) by lia. fold w1. rewrite value_upd by auto. fold w.
    rewrite Wpow_S, P_W. replace (P n) with (HW * P (2 * k)) by (rewrite <- P_S; f_equal; lia).
    rewrite dg2_split. replace (dg (value ws) n) with (hi w) by (rewrite B; f_equal; lia). replace (dg (value ws) (S n)) with (lo w1) by (rewrite A1; f_equal; lia).
    replace w with (hi w * HW + lo w) at 2 by lia. replace w1 with (hi w1 * HW + lo w1) at 2 by lia. rewrite (hi_lo v Hv) at 3. rewrite W_HW. ring.
  - rewrite wr_ok by auto. eexists; split; [reflexivity|]. rewrite upd_length. split; auto. split; [now apply upd_words|].
    destruct (word_dg ws k F) as (_ & _ & C). rewrite value_upd, P_W, C by auto. replace (2 * k)%nat with n by lia. reflexivity.
Qed.
(** the part above the window does not change *)
Lemma window_high : forall V V' x m n, 0 < m -> 0 <= x < m -> 0 < n -> V' = V + (x - V / n mod m) * n -> V' / (n * m) = V / (n * m).
Proof.
  intros V V' x m n Hm Hx Hn E. rewrite <- !Z.div_div by lia. pose proof (Z.div_mod V n ltac:(lia)) as D. pose proof (Z.mod_pos_bound V n Hn) as Bd.
  set (Y := V / n) in *. assert (E2 : V' / n = Y + (x - Y mod m)). { subst V'. rewrite D. replace (n * Y + V mod n + (x - Y mod m) * n) with (V mod n + (Y + (x - Y mod m)) * n) by ring. rewrite Z.div_add, Z.div_small by lia. lia. }
  rewrite E2. pose proof (Z.div_mod Y m ltac:(lia)) as D2. replace (Y + (x - Y mod m)) with (x + (Y / m) * m) by lia. rewrite Z.div_add, Z.div_small by lia. lia.
Qed.
Lemma high_mono : forall V V' a b, V / P a = V' / P a -> V / P (a + b) = V' / P (a + b).
Proof. intros. rewrite P_add, <- !Z.div_div by (pose proof (P_pos a); pose proof (P_pos b); lia). now rewrite H. Qed.
Lemma mod_P_S : forall X n, X mod P (S n) = X mod HW + HW * (X / HW mod P n).
Proof. intros. rewrite P_S, Z.rem_mul_r by (discriminate || apply P_pos). reflexivity. Qed.

Lemma gdiv_sub_ok : forall n u v qq cy j k, Forall word u -> Forall word v -> half qq -> (cy = 0 \/ cy = HW) ->
  (j + k + n < 2 * length u)%nat -> (k + n <= 2 * length v)%nat ->
  exists u' cy', gdiv_sub n u v qq cy j k = Ok (u', cy') /\ length u' = length u /\ Forall word u' /\ (cy' = 0 \/ cy' = HW)
  /\ value u' = value u - qq * (value v / P k mod P n) * P (j + k) - cy * P (j + k) + cy' * P (j + k + n)
  /\ value u' / P (j + k + n + 1) = value u / P (j + k + n + 1).
Proof.
  induction n; intros u v qq cy j k Fu Fv Hq Hc Lu Lv; cbn [gdiv_sub].
  { exists u, cy. repeat split; auto. rewrite P_0, Z.mod_1_r, Nat.add_0_r. lia. }
  rewrite digit_ok by (auto; lia). cbn [bind]. rewrite digit2_ok by (auto; lia). cbn [bind].
  pose proof (dg_half (value v) k) as Hd. set (d := dg (value v) k) in *.
  pose proof (half_mul qq d Hq Hd) as Hm. pose proof W_big. pose proof HW_big. assert (HW2 : HW < 4294967297) by reflexivity.
  rewrite (uwrap_small (qq * d)) by lia. pose proof (dg2_word (value u) (j + k)) as Hw. set (uj := dg2 (value u) (j + k)) in *. unfold word in Hw.
  set (vv := qq * d) in *.
  assert (S : exists uj2 cy1, uwrap (uj - vv - cy) = uj2 /\ (if uj <? uj2 then HW else 0) = cy1 /\ word uj2 /\ (cy1 = 0 \/ cy1 = HW) /\ uj2 = uj - vv - cy + HW * cy1).
  { destruct (Z.ltb_spec (uj - vv - cy) 0).
    - exists (uj - vv - cy + W), HW. rewrite uwrap_add by (destruct Hc; lia). unfold word. rewrite (proj2 (Z.ltb_lt _ _)) by (destruct Hc; lia). rewrite W_HW in *. repeat split; auto; lia.
    - exists (uj - vv - cy), 0. rewrite uwrap_small by (destruct Hc; lia). unfold word. rewrite (proj2 (Z.ltb_ge _ _)) by (destruct Hc; lia). repeat split; auto; destruct Hc; lia. }
  destruct S as (uj2 & cy1 & -> & -> & Wj & Hc1 & Ej).
  destruct (setdigit2_ok u (j + k) uj2 Fu ltac:(lia) Wj) as (u1 & -> & L1 & F1 & V1). cbn [bind].
  destruct (IHn u1 v qq cy1 j (S k) F1 Fv Hq Hc1 ltac:(lia) ltac:(lia)) as (u' & cy' & -> & L' & F' & Hc' & V' & T').
  exists u', cy'. split; auto. split; [congruence|]. split; auto. split; auto.
  fold uj in V1. assert (Ei : (j + k + S n)%nat = (j + S k + n)%nat) by lia. rewrite Ei. split.
  - rewrite V', V1, mod_P_S. unfold d, dg in vv. rewrite P_S. replace (j + S k)%nat with (S (j + k)) by lia. rewrite P_S.
    rewrite (Z.mul_comm HW (P k)), <- Z.div_div by (pose proof (P_pos k); pose proof HW_pos; lia).
    rewrite Ej. unfold vv. ring.
  - rewrite T'. replace (j + S k + n + 1)%nat with ((j + k + 2) + n)%nat by lia. apply high_mono. replace (P (j + k + 2)) with (P (j + k) * W) by (rewrite (P_add (j + k) 2), P_2; reflexivity).
    apply window_high with uj2; auto. apply P_pos.
Qed.
Lemma gdiv_addback_ok : forall n u v cy j k, Forall word u -> Forall word v -> bit01 cy ->
  (j + k + n <= 2 * length u)%nat -> (k + n <= 2 * length v)%nat ->
  exists u' cy', gdiv_addback n u v cy j k = Ok (u', cy') /\ length u' = length u /\ Forall word u' /\ bit01 cy'
  /\ value u' = value u + (value v / P k mod P n) * P (j + k) + cy * P (j + k) - cy' * P (j + k + n)
  /\ value u' / P (j + k + n) = value u / P (j + k + n).
Proof.
  induction n; intros u v cy j k Fu Fv Hc Lu Lv; cbn [gdiv_addback].
  { exists u, cy. repeat split; auto. rewrite P_0, Z.mod_1_r, Nat.add_0_r. lia. }
  rewrite !digit_ok by (auto; lia). cbn [bind].
  pose proof (dg_half (value v) k) as Hd. set (d := dg (value v) k) in *.
  pose proof (dg_half (value u) (j + k)) as Hu. set (u0 := dg (value u) (j + k)) in *. unfold half in *. unfold bit01 in Hc. assert (HW2 : 2 * HW < W) by reflexivity.
  rewrite (uwrap_small (u0 + d + cy)) by lia.
  destruct (setdigit_ok u (j + k) (u0 + d + cy) Fu ltac:(lia)) as (u1 & -> & L1 & F1 & V1). cbn [bind].
  set (cy1 := if HW <=? u0 + d + cy then 1 else 0).
  assert (M : (u0 + d + cy) mod HW = u0 + d + cy - HW * cy1).
  { unfold cy1. destruct (Z.leb_spec HW (u0 + d + cy)); [symmetry; apply Z.mod_unique with 1; lia|rewrite Z.mod_small; lia]. }
  assert (Hc1 : bit01 cy1) by (unfold cy1, bit01; destruct (HW <=? u0 + d + cy); auto).
  destruct (IHn u1 v cy1 j (S k) F1 Fv Hc1 ltac:(lia) ltac:(lia)) as (u' & cy' & -> & L' & F' & Hc' & V' & T').
  exists u', cy'. split; auto. split; [congruence|]. split; auto. split; auto.
  assert (Ei : (j + k + S n)%nat = (j + S k + n)%nat) by lia. rewrite Ei. fold u0 in V1. split.
  - rewrite V', V1, mod_P_S, M. unfold d, dg. rewrite P_S. replace (j + S k)%nat with (S (j + k)) by lia. rewrite P_S.
    rewrite (Z.mul_comm HW (P k)), <- Z.div_div by (pose proof (P_pos k); pose proof HW_pos; lia). ring.
  - rewrite T'. replace (j + S k + n)%nat with ((j + k + 1) + n)%nat by lia. apply high_mono. replace (P (j + k + 1)) with (P (j + k) * HW) by (rewrite (P_add (j + k) 1), P_1; reflexivity).
    apply window_high with ((u0 + d + cy) mod HW); auto; try apply P_pos. apply Z.mod_pos_bound. reflexivity.
Qed.

(** quotient digit estimation *)
Lemma est1_ok : forall fuel qq rr vn1 uu q, 0 <= q < HW -> half vn1 -> 0 <= rr -> qq * vn1 + rr = uu -> word uu -> q <= qq ->
  qq < HW - 1 + Z.of_nat fuel -> (0 < fuel)%nat -> rr + Z.of_nat fuel * vn1 < W - HW -> qq < W ->
  exists qq' rr', est1 fuel qq rr vn1 = Ok (qq', rr') /\ half qq' /\ q <= qq' /\ 0 <= rr' /\ qq' * vn1 + rr' = uu /\ rr' < W - HW.
Proof.
  induction fuel; intros qq rr vn1 uu q Hq Hv Hr E Hu Le Lt Hf Hb Hqw; [lia|]. cbn [est1].
  destruct (Z.leb_spec HW qq).
  - destruct fuel as [|f]; [exfalso; lia|]. unfold half, word in *. assert (Hs : rr + vn1 + Z.of_nat (S f) * vn1 < W - HW) by lia. assert (0 <= Z.of_nat (S f) * vn1) by (apply Z.mul_nonneg_nonneg; lia).
    rewrite !uwrap_small by (pose proof HW_big; lia).
    destruct (IHfuel (qq - 1) (rr + vn1) vn1 uu q) as (a & b & E1 & R); auto; try lia. exists a, b. auto.
  - assert (0 <= Z.of_nat (S fuel) * vn1) by (unfold half in Hv; apply Z.mul_nonneg_nonneg; lia). exists qq, rr. unfold half in *. repeat split; auto; lia.
Qed.
Lemma est2_ok : forall fuel qq rr vn1 vn2 d2 uu q, half qq -> half vn1 -> half vn2 -> half d2 -> HW <= 2 * vn1 -> 0 <= rr < W - HW ->
  qq * vn1 + rr = uu -> 0 <= q <= qq -> q * (vn1 * HW + vn2) <= uu * HW + d2 ->
  (rr < HW -> 2 * HW <= 2 * rr + (Z.of_nat fuel - 1) * HW) -> (0 < fuel)%nat ->
  exists qq', est2 fuel qq rr vn1 vn2 d2 = Ok qq' /\ half qq' /\ q <= qq' /\ qq' * (vn1 * HW + vn2) <= uu * HW + d2.
Proof.
  induction fuel; intros qq rr vn1 vn2 d2 uu q Hq H1 H2 Hd Hn Hr E Le Lq Fu Hf; [lia|]. cbn [est2].
  pose proof (half_mul qq vn2 Hq H2) as Hm. assert (HW3 : 4 * HW < W) by reflexivity. pose proof HW_big as HB.
  rewrite (uwrap_small (qq * vn2)) by lia. unfold half in *.
  assert (Vtop : qq * (vn1 * HW + vn2) = (uu - rr) * HW + qq * vn2) by (replace (uu - rr) with (qq * vn1) by lia; ring).
  destruct (Z.ltb_spec rr HW) as [Lr|Lr].
  - rewrite ushl32, (Z.mod_small rr) by lia. pose proof (half_join rr d2 ltac:(unfold half; lia) ltac:(unfold half; lia)) as Hj. rewrite (uwrap_small (rr * HW + d2)) by exact Hj.
    rewrite andb_true_r. destruct (Z.ltb_spec (rr * HW + d2) (qq * vn2)) as [L|L].
    + assert (q < qq). { destruct (Z.eq_dec q qq); [subst q|lia]. exfalso. rewrite Vtop in Lq. lia. }
      rewrite !uwrap_small by lia. specialize (Fu Lr). replace (Z.of_nat (S fuel) - 1) with (Z.of_nat fuel) in Fu by lia.
      assert (F0 : (0 < fuel)%nat) by (destruct fuel; [change (Z.of_nat 0) with 0 in Fu; lia|lia]).
      assert (F1 : (Z.of_nat fuel - 1) * HW = Z.of_nat fuel * HW - HW) by ring.
      destruct (IHfuel (qq - 1) (rr + vn1) vn1 vn2 d2 uu q) as (a & Ea & Ha & Hb & Hc); unfold half; try lia.
      exists a. auto.
    + exists qq. split; [reflexivity|]. split; [auto|]. split; [lia|]. rewrite Vtop. lia.
  - rewrite andb_false_r. exists qq. split; [reflexivity|]. split; [auto|]. split; [lia|]. rewrite Vtop.
    assert (HW * HW <= rr * HW) by (apply Z.mul_le_mono_nonneg_r; lia). rewrite W_HW in Hm. lia.
Qed.

(** the estimate is at most one too large *)
Lemma knuth_upper : forall Uj V (n : nat) qq, (2 <= n)%nat -> P n <= 2 * V -> V < P n -> 0 <= Uj -> half qq ->
  qq * (V / P (n - 2)) <= Uj / P (n - 2) -> qq <= Uj / V + 1.
Proof.
  intros Uj V n qq Hn Hv Hv2 HU Hq H. set (B := P (n - 2)) in *. assert (HB : 0 < B) by apply P_pos.
  assert (Pn : P n = HW * HW * B) by (replace n with (S (S (n - 2))) at 1 by lia; rewrite !P_S; unfold B; ring).
  assert (HV : 0 < V) by (rewrite Pn in Hv; pose proof HW_pos; nia).
  pose proof (Z.mul_succ_div_gt Uj V HV) as G. pose proof (Z.mul_div_le Uj B HB) as L1. pose proof (Z.div_mod V B ltac:(lia)) as D. pose proof (Z.mod_pos_bound V B HB) as M.
  set (q := Uj / V) in *. set (V2 := V / B) in *. set (T := Uj / B) in *. unfold half in Hq.
  assert (X : qq * V2 * B <= T * B) by (apply Z.mul_le_mono_nonneg_r; lia).
  assert (qq * V - qq * B < V * (q + 1)). { replace (qq * V) with (qq * V2 * B + qq * (V mod B)) by (rewrite D at 2; ring). assert (qq * (V mod B) <= qq * B) by (apply Z.mul_le_mono_nonneg_l; lia). lia. }
  destruct (Z.leb_spec qq (q + 1)); auto. exfalso. assert (V <= (qq - q - 1) * V) by nia. assert (qq * B < HW * B) by (apply Z.mul_lt_mono_pos_r; lia).
  rewrite Pn in Hv. pose proof HW_big. assert (2 * (HW * B) <= HW * HW * B) by nia. nia.
Qed.
Lemma knuth_lower : forall Uj V B q, 0 < B -> 0 < V -> 0 <= Uj -> 0 <= q -> q * V <= Uj -> q * (V / B) <= Uj / B.
Proof.
  intros Uj V B q HB HV HU Hq H. apply Z.div_le_lower_bound; auto. pose proof (Z.mul_div_le V B HB). nia.
Qed.

(** the top digits of U and V *)
Lemma dg_top : forall V n, 0 <= V < P (S n) -> dg V n = V / P n.
Proof. intros V n H. unfold dg. apply Z.mod_small. pose proof (P_pos n). split; [apply Z.div_pos; lia|]. apply Z.div_lt_upper_bound; auto. rewrite P_S in H. lia. Qed.
Lemma dg_join : forall V n, V / P (S n) * HW + dg V n = V / P n.
Proof.
  intros. unfold dg. rewrite P_S, (Z.mul_comm HW (P n)), <- Z.div_div by (pose proof (P_pos n); pose proof HW_pos; lia).
  pose proof (Z.div_mod (V / P n) HW ltac:(discriminate)). lia.
Qed.
Lemma div_P_P : forall U a b, U / P a / P b = U / P (a + b).
Proof. intros. rewrite P_add, Z.div_div; pose proof (P_pos a); pose proof (P_pos b); lia. Qed.

Lemma gdiv_loop_ok : forall jn u v q n, Forall word u -> Forall word v -> Forall word q -> (2 <= n)%nat -> P n <= 2 * value v -> value v < P n ->
  (n <= 2 * length v)%nat -> (jn + n <= 2 * length u)%nat -> (jn <= 2 * length q)%nat -> value u < value v * P jn -> value q mod P jn = 0 ->
  exists u' q', gdiv_loop jn u v q n (dg (value v) (n - 1)) (dg (value v) (n - 2)) = Ok (u', q') /\ length u' = length u /\ length q' = length q
  /\ Forall word u' /\ Forall word q' /\ value u' = value u mod value v /\ value q' = value q + value u / value v.
Proof.
  induction jn as [|j IH]; intros u v q n Fu Fv Fq Hn Hv1 Hv2 Lv Lu Lq HU Hq; cbn [gdiv_loop].
  { rewrite P_0, Z.mul_1_r in HU. pose proof (value_bound u Fu). exists u, q. rewrite Z.mod_small, Z.div_small by lia. repeat split; auto; lia. }
  pose proof (value_bound u Fu) as [U0 _]. set (U := value u) in *. set (V := value v) in *.
  pose proof (P_pos j) as Pj. pose proof (P_pos n) as Pn. assert (HV : 0 < V) by lia. pose proof HW_big as HB.
  assert (Pn1 : P n = HW * P (n - 1)) by (rewrite <- P_S; f_equal; lia). pose proof (P_pos (n - 1)) as Pp.
  set (Q := U / (V * P j)). set (R := U mod (V * P j)).
  assert (VP : 0 < V * P j) by (apply Z.mul_pos_pos; lia).
  assert (UR : U = V * P j * Q + R) by (apply Z.div_mod; lia). assert (R0 : 0 <= R < V * P j) by (apply Z.mod_pos_bound; lia).
  assert (Q0 : 0 <= Q < HW). { split; [apply Z.div_pos; lia|]. apply Z.div_lt_upper_bound; auto. rewrite P_S in HU. lia. }
  set (Uj := U / P j). assert (Uj0 : 0 <= Uj) by (apply Z.div_pos; lia).
  assert (QUj : Q = Uj / V) by (unfold Q, Uj; rewrite Z.div_div by lia; f_equal; lia).
  assert (UjV : Uj < V * HW). { apply Z.div_lt_upper_bound; auto. rewrite P_S in HU. lia. }
  assert (Utop : 0 <= U < P (S (j + n))). { split; auto. replace (S (j + n)) with (n + S j)%nat by lia. rewrite P_add. pose proof (P_pos (S j)). assert (V * P (S j) < P n * P (S j)) by (apply Z.mul_lt_mono_pos_r; lia). lia. }
  rewrite !digit_ok by (auto; lia). cbn [bind]. fold U.
  assert (E0 : dg U (j + n) * HW + dg U (j + n - 1) = Uj / P (n - 1)).
  { rewrite (dg_top U (j + n)) by auto. unfold Uj. rewrite div_P_P. replace (j + (n - 1))%nat with (j + n - 1)%nat by lia. rewrite <- (dg_join U (j + n - 1)). f_equal. f_equal. f_equal. f_equal. lia. }
  pose proof (dg_half U (j + n)) as Hd1. pose proof (dg_half U (j + n - 1)) as Hd0. pose proof (dg_half U (j + n - 2)) as Hd2.
  assert (Evn1 : dg V (n - 1) = V / P (n - 1)) by (apply dg_top; replace (S (n - 1)) with n by lia; lia).
  assert (Evn2 : dg V (n - 1) * HW + dg V (n - 2) = V / P (n - 2)).
  { rewrite Evn1. rewrite <- (dg_join V (n - 2)). f_equal. f_equal. f_equal. f_equal. lia. }
  assert (E2 : Uj / P (n - 1) * HW + dg U (j + n - 2) = Uj / P (n - 2)).
  { unfold Uj. rewrite !div_P_P. replace (j + (n - 2))%nat with (j + n - 2)%nat by lia. rewrite <- (dg_join U (j + n - 2)). f_equal. f_equal. f_equal. f_equal. lia. }
  assert (Hvn1 : half (dg V (n - 1))) by apply dg_half. assert (Hvn2 : half (dg V (n - 2))) by apply dg_half.
  set (vn1 := dg V (n - 1)) in *. set (vn2 := dg V (n - 2)) in *. set (uu := Uj / P (n - 1)) in *.
  assert (Wu : word uu) by (rewrite <- E0; now apply half_join).
  rewrite ushl32, Z.mod_small by exact Hd1. rewrite E0, (uwrap_small uu) by exact Wu.
  assert (Hnorm : HW <= 2 * vn1).
  { assert (Hh : HW = 2 * 2147483648) by reflexivity. enough (2147483648 <= vn1) by lia. rewrite Evn1. apply Z.div_le_lower_bound; auto. rewrite Pn1, Hh in Hv1. lia. }
  unfold udiv, umod. rewrite (proj2 (Z.eqb_neq vn1 0)) by lia. cbn [bind].
  assert (Uv : uu < (vn1 + 1) * HW).
  { unfold uu. apply Z.div_lt_upper_bound; auto. pose proof (Z.mul_succ_div_gt V (P (n - 1)) Pp) as G. rewrite <- Evn1 in G. unfold Z.succ in G. assert (V * HW < P (n - 1) * (vn1 + 1) * HW) by (apply Z.mul_lt_mono_pos_r; lia). lia. }
  assert (Ql : Q * vn1 <= uu). { rewrite Evn1. unfold uu. apply knuth_lower; auto; try lia. rewrite QUj, Z.mul_comm. now apply Z.mul_div_le. }
  assert (Hv0 : 0 < vn1) by lia.
  pose proof (Z.div_mod uu vn1 ltac:(lia)) as DM. pose proof (Z.mod_pos_bound uu vn1 Hv0) as MB.
  unfold half, word in *. assert (HW5 : 9 * HW < W) by reflexivity.
  destruct (est1_ok 4 (uu / vn1) (uu mod vn1) vn1 uu Q) as (qq1 & rr1 & -> & Hqq1 & Lqq1 & Hrr1 & E1 & Brr1); auto; unfold half, word; try lia.
  { apply Z.div_le_lower_bound; lia. }
  { change (Z.of_nat 4) with 4. apply Z.div_lt_upper_bound; auto. lia. }
  { apply Z.le_lt_trans with uu; [|lia]. apply Z.div_le_upper_bound; auto. replace uu with (1 * uu) at 1 by lia. apply Z.mul_le_mono_nonneg_r; lia. }
  cbn [bind fst snd].
  assert (Ql2 : Q * (vn1 * HW + vn2) <= uu * HW + dg U (j + n - 2)).
  { rewrite Evn2, E2. apply knuth_lower; auto; try lia. apply P_pos. rewrite QUj, Z.mul_comm. now apply Z.mul_div_le. }
  destruct (est2_ok 4 qq1 rr1 vn1 vn2 (dg U (j + n - 2)) uu Q) as (qq & -> & Hqq & Lqq & Uqq); auto; unfold half; try lia.
  cbn [bind]. rewrite Evn2, E2 in Uqq.
  pose proof (knuth_upper Uj V n qq Hn Hv1 Hv2 Uj0 Hqq Uqq) as Kq. rewrite <- QUj in Kq.
  destruct (gdiv_sub_ok n u v qq 0 j 0 Fu Fv Hqq ltac:(auto) ltac:(lia) ltac:(lia)) as (u1 & cy & -> & L1 & F1 & Hcy & V1 & T1). cbn [bind].
  rewrite Nat.add_0_r in V1, T1. rewrite P_0, Z.div_1_r, (Z.mod_small (value v)) in V1 by (fold V; lia). fold U V in V1, T1.
  replace (j + n + 1)%nat with (S (j + n)) in T1 by lia. rewrite (Z.div_small U) in T1 by auto.
  pose proof (value_bound u1 F1) as [U10 _]. pose proof (P_pos (S (j + n))) as PSn. pose proof (P_pos (j + n)) as Pjn.
  assert (U1b : value u1 < P (S (j + n))). { pose proof (Z.mul_succ_div_gt (value u1) _ PSn) as G. rewrite T1 in G. lia. }
  assert (VPn : V * P j < P (j + n)). { rewrite Nat.add_comm, P_add. apply Z.mul_lt_mono_pos_r; auto. }
  assert (Ecy : U - qq * V * P j = R + (Q - qq) * (V * P j)) by (rewrite UR at 1; ring). 
  assert (Main : exists u4, (if cy =? 0 then Ok (u1, qq) else do a <- gdiv_addback n u1 v 0 j 0; let '(u2, cy2) := a in do t <- digit u2 (j + n); do u3 <- setdigit u2 (j + n) (uwrap (t + cy2)); Ok (u3, uwrap (qq - 1)))
     = Ok (u4, Q) /\ length u4 = length u /\ Forall word u4 /\ value u4 = R).
  { destruct Hcy as [-> | ->].
    - change (0 =? 0) with true. cbn match. assert (qq = Q). { destruct (Z.eq_dec qq (Q + 1)) as [->|]; [exfalso|lia]. replace (Q - (Q + 1)) with (-1) in Ecy by lia. lia. }
      subst qq. exists u1. repeat split; auto. rewrite V1. replace (Q - Q) with 0 in Ecy by lia. lia.
    - change (HW =? 0) with false. cbn match. rewrite <- P_S in V1. assert (qq = Q + 1). { destruct (Z.eq_dec qq Q) as [->|]; [exfalso|lia]. replace (Q - Q) with 0 in Ecy by lia. lia. }
      subst qq. replace (Q - (Q + 1)) with (-1) in Ecy by lia.
      destruct (gdiv_addback_ok n u1 v 0 j 0 F1 Fv ltac:(unfold bit01; lia) ltac:(lia) ltac:(lia)) as (u2 & cy2 & -> & L2 & F2 & Hcy2 & V2 & T2). cbn [bind].
      rewrite Nat.add_0_r in V2, T2. rewrite P_0, Z.div_1_r, (Z.mod_small (value v)) in V2 by (fold V; lia). fold V in V2.
      assert (Top : value u1 / P (j + n) = HW - 1). { symmetry. apply Z.div_unique with (value u1 - P (j + n) * (HW - 1)); [left|lia]. rewrite P_S in V1. lia. }
      rewrite Top in T2. rewrite digit_ok by (auto; lia). cbn [bind]. unfold dg. rewrite T2, (Z.mod_small (HW - 1)) by lia.
      assert (cy2 = 1). { destruct Hcy2 as [->| ->]; auto. exfalso. pose proof (Z.mul_succ_div_gt (value u2) _ Pjn) as G. rewrite T2 in G. rewrite P_S in V1. lia. }
      subst cy2. rewrite uwrap_small by lia. destruct (setdigit_ok u2 (j + n) (HW - 1 + 1) F2 ltac:(lia)) as (u3 & -> & L3 & F3 & V3). cbn [bind].
      exists u3. rewrite uwrap_small by lia. split; [f_equal; f_equal; lia|]. split; [lia|]. split; auto.
      unfold dg in V3. rewrite T2, (Z.mod_small (HW - 1)) in V3 by lia. replace (HW - 1 + 1) with HW in V3 by lia. rewrite Z.mod_same in V3 by discriminate. rewrite P_S in V1. lia. }
  destruct Main as (u4 & -> & L4 & F4 & V4). cbn [bind].
  destruct (setdigit_ok q j Q Fq ltac:(lia)) as (q1 & -> & Lq1 & Fq1 & Vq1). cbn [bind].
  assert (Dq : value q mod P j = 0 /\ dg (value q) j = 0).
  { rewrite P_S, Z.mul_comm, Z.rem_mul_r in Hq by lia. unfold dg. pose proof (Z.mod_pos_bound (value q) (P j) Pj). pose proof (Z.mod_pos_bound (value q / P j) HW HW_pos) as Mb. assert (0 <= P j * ((value q / P j) mod HW)) by (apply Z.mul_nonneg_nonneg; lia). split; [lia|]. apply Z.mul_reg_l with (P j); lia. }
  destruct Dq as [Dq1 Dq2]. rewrite Dq2, Z.mod_small, Z.sub_0_r in Vq1 by lia.
  destruct (IH u4 v q1 n F4 Fv Fq1 Hn Hv1 Hv2 Lv ltac:(lia) ltac:(lia)) as (u' & q' & E & La & Lb & Fa & Fb & Va & Vb).
  { rewrite V4. fold V. lia. } { rewrite Vq1, Z.mod_add by lia. exact Dq1. }
  exists u', q'. split; [exact E|]. split; [lia|]. split; [lia|]. split; auto. split; auto. fold V in Va, Vb. rewrite Va, Vb, V4, Vq1.
  assert (EU : U = R + (P j * Q) * V) by lia. rewrite EU, Z.mod_add, Z.div_add by lia. split; [reflexivity|lia].
Qed.

(** div_normalization_factor counts the leading zeros *)
Lemma dnf_ok : forall n w b c, w <> 0 -> 0 <= w < 2 * 2 ^ Z.of_nat n -> b = 2 ^ Z.of_nat n -> exists k, dnf_loop (S n) w b c = Ok (c + k) /\ 0 <= k <= Z.of_nat n /\ 2 ^ Z.of_nat n <= w * 2 ^ k < 2 * 2 ^ Z.of_nat n.
Proof.
  induction n; intros w b c Hw Hb ->.
  - change (2 ^ Z.of_nat 0) with 1 in *. assert (w = 1) by lia. subst w. exists 0. cbn [dnf_loop]. change (0 <? 1) with true. cbn match. change (Z.land 1 1 =? 0) with false. cbn [negb]. change (Z.of_nat 0) with 0. split; [f_equal; lia|]. split; [lia|]. change (2 ^ 0) with 1. lia.
  - cbn [dnf_loop]. pose proof (Z.pow_pos_nonneg 2 (Z.of_nat (S n)) ltac:(lia) ltac:(lia)) as Pb. rewrite (proj2 (Z.ltb_lt _ _)) by lia.
    assert (PS : 2 ^ Z.of_nat (S n) = 2 * 2 ^ Z.of_nat n) by (rewrite Nat2Z.inj_succ, Z.pow_succ_r by lia; reflexivity).
    destruct (Z.ltb_spec w (2 ^ Z.of_nat (S n))) as [L|L].
    + assert (Z0 : Z.land w (2 ^ Z.of_nat (S n)) = 0).
      { apply Z.bits_inj'. intros i Hi. rewrite Z.land_spec, Z.bits_0, Z.pow2_bits_eqb by lia. destruct (Z.eqb_spec (Z.of_nat (S n)) i) as [<-|]; [|apply andb_false_r]. rewrite andb_true_r. apply Z.bits_above_log2; [lia|]. apply Z.log2_lt_pow2; lia. }
      rewrite Z0. change (0 =? 0) with true. cbn [negb]. destruct (IHn w (ushr (2 ^ Z.of_nat (S n)) 1) (c + 1) Hw) as (k & E & K1 & K2).
      { lia. } { rewrite ushr_div by lia. rewrite PS. change (2 ^ 1) with 2. rewrite Z.mul_comm, Z.div_mul by lia. reflexivity. }
      exists (k + 1). cbn [dnf_loop] in E. rewrite E. split; [f_equal; lia|]. split; [lia|]. rewrite Z.pow_add_r, PS by lia. change (2 ^ 1) with 2. lia.
    + assert (Z1 : Z.land w (2 ^ Z.of_nat (S n)) <> 0).
      { intro Z0. assert (T : Z.testbit (Z.land w (2 ^ Z.of_nat (S n))) (Z.of_nat (S n)) = true); [|rewrite Z0, Z.bits_0 in T; discriminate].
        rewrite Z.land_spec, Z.pow2_bits_true by lia. rewrite andb_true_r. rewrite Z.testbit_true by lia. replace (w / 2 ^ Z.of_nat (S n)) with 1; [reflexivity|]. apply Z.div_unique with (w - 2 ^ Z.of_nat (S n)); lia. }
      rewrite (proj2 (Z.eqb_neq _ _)) by exact Z1. cbn [negb]. exists 0. split; [f_equal; lia|]. split; [lia|]. change (2 ^ 0) with 1. lia.
Qed.
Lemma div_normalization_factor_ok : forall w, word w -> w <> 0 -> exists d, div_normalization_factor w = Ok d /\ 0 <= d <= 63 /\ 9223372036854775808 <= w * 2 ^ d < W.
Proof.
  intros w H H0. unfold div_normalization_factor. replace (dnf_loop 65 w (ushl 1 63) 0) with (dnf_loop 64 w (ushl 1 63) 0).
  - destruct (dnf_ok 63 w (ushl 1 63) 0 H0 H eq_refl) as (k & E & K1 & K2). exists k. rewrite E. split; [reflexivity|]. split; [exact K1|exact K2].
  - destruct (dnf_ok 63 w (ushl 1 63) 0 H0 H eq_refl) as (k & E & _). rewrite E. revert E. generalize (ushl 1 63) 0 (0 + k). generalize 64%nat. intro n. revert w H H0.
    induction n; intros w H H0 b c r E; [discriminate|]. cbn [dnf_loop] in E |- *. destruct (0 <? b); [|discriminate]. destruct (negb (Z.land w b =? 0)); auto. apply (IHn w H H0 _ _ _ E).
Qed.
