(** Word arithmetic, values of word arrays, normalisation, comparison, addition and
    subtraction. *)
From Coq Require Import List Bool ZArith Lia Zquot.
From Verif Require Import Outcome BignumModel IntSpec.
Import ListNotations.
Local Open Scope Z_scope.
Ltac Zify.zify_post_hook ::= idtac.

Lemma W_pow : 2 ^ 64 = W. Proof. reflexivity. Qed.
Lemma HW_pow : 2 ^ 32 = HW. Proof. reflexivity. Qed.
Lemma W_HW : W = HW * HW. Proof. reflexivity. Qed.
Lemma W_pos : 0 < W. Proof. reflexivity. Qed.
Lemma HW_pos : 0 < HW. Proof. reflexivity. Qed.
Lemma HW_big : 4294967295 < HW. Proof. reflexivity. Qed.
Lemma W_big : 18446744073709551615 < W. Proof. reflexivity. Qed.
Global Hint Resolve W_pos HW_pos : core.
Definition word (w : Z) : Prop := 0 <= w < W.
Lemma is_word_word : forall w, is_word w <-> word w. Proof. intros; unfold is_word, word. now rewrite W_pow. Qed.
Lemma words_word : forall ws, Forall is_word ws <-> Forall word ws.
Proof. intros. rewrite !Forall_forall. split; intros H x Hx; specialize (H x Hx); now apply is_word_word. Qed.

Lemma uwrap_small : forall x, 0 <= x < W -> uwrap x = x. Proof. intros; now apply Z.mod_small. Qed.
Lemma uwrap_word : forall x, word (uwrap x). Proof. intros. apply Z.mod_pos_bound. reflexivity. Qed.
Lemma uwrap_sub : forall x, W <= x < 2 * W -> uwrap x = x - W.
Proof. intros. unfold uwrap. symmetry. apply Z.mod_unique with 1; lia. Qed.
Lemma uwrap_add : forall x, - W <= x < 0 -> uwrap x = x + W.
Proof. intros. unfold uwrap. symmetry. apply Z.mod_unique with (-1); lia. Qed.

Definition bit01 (c : Z) : Prop := c = 0 \/ c = 1.
Lemma uadd_ok : forall c x y, word x -> word y -> bit01 c -> exists r c1, uadd c x y = (r, c1) /\ word r /\ bit01 c1 /\ r + W * c1 = x + y + c.
Proof.
  intros c x y Hx Hy Hc. unfold uadd. unfold word, bit01 in *. pose proof W_pos.
  destruct (Z.ltb_spec (x + y + c) W) as [L|L].
  - rewrite uwrap_small by lia. exists (x + y + c), 0. split; [|repeat split; lia]. f_equal.
    destruct (Z.ltb_spec (x + y + c) x); [lia|]. destruct (Z.eqb_spec (x + y + c) x); cbn [orb andb]; auto.
    destruct (Z.ltb_spec 0 y); [lia|]. destruct (Z.ltb_spec 0 c); [lia|]. reflexivity.
  - rewrite uwrap_sub by lia. exists (x + y + c - W), 1. split; [|repeat split; lia]. f_equal.
    destruct (Z.ltb_spec (x + y + c - W) x); cbn [orb]; [reflexivity|].
    rewrite (proj2 (Z.eqb_eq _ _)) by lia. cbn [andb]. destruct (Z.ltb_spec 0 y); cbn [orb]; auto.
    destruct (Z.ltb_spec 0 c); auto. lia.
Qed.
Lemma usub_ok : forall c x y, word x -> word y -> bit01 c -> exists r c1, usub c x y = (r, c1) /\ word r /\ bit01 c1 /\ r - W * c1 = x - y - c.
Proof.
  intros c x y Hx Hy Hc. unfold usub. unfold word, bit01 in *. pose proof W_pos.
  destruct (Z.ltb_spec (x - y - c) 0) as [L|L].
  - rewrite uwrap_add by lia. exists (x - y - c + W), 1. split; [|repeat split; lia]. f_equal.
    destruct (Z.ltb_spec x (x - y - c + W)); cbn [orb]; [reflexivity|].
    rewrite (proj2 (Z.eqb_eq _ _)) by lia. cbn [andb]. destruct (Z.ltb_spec 0 y); cbn [orb]; auto.
    destruct (Z.ltb_spec 0 c); auto. lia.
  - rewrite uwrap_small by lia. exists (x - y - c), 0. split; [|repeat split; lia]. f_equal.
    destruct (Z.ltb_spec x (x - y - c)); [lia|]. destruct (Z.eqb_spec (x - y - c) x); cbn [orb andb]; auto.
    destruct (Z.ltb_spec 0 y); [lia|]. destruct (Z.ltb_spec 0 c); [lia|]. reflexivity.
Qed.

(** halves *)
Lemma land_lomask : forall w, Z.land w LOMASK = w mod HW.
Proof. intros. change LOMASK with (Z.ones 32). rewrite Z.land_ones by lia. reflexivity. Qed.
Lemma lo_mod : forall w, lo w = w mod HW. Proof. intros. apply land_lomask. Qed.
Lemma shiftr32 : forall w, Z.shiftr w 32 = w / HW. Proof. intros. rewrite Z.shiftr_div_pow2 by lia. reflexivity. Qed.
Lemma shiftl32 : forall w, Z.shiftl w 32 = w * HW. Proof. intros. rewrite Z.shiftl_mul_pow2 by lia. reflexivity. Qed.
Lemma hi_div : forall w, word w -> hi w = w / HW.
Proof.
  intros w Hw. unfold hi. rewrite land_lomask, shiftr32. apply Z.mod_small. unfold word in Hw. rewrite W_HW in Hw. pose proof HW_pos.
  split; [apply Z.div_pos; lia|]. apply Z.div_lt_upper_bound; lia.
Qed.
Definition half (x : Z) : Prop := 0 <= x < HW.
Lemma lo_half : forall w, half (lo w). Proof. intros. rewrite lo_mod. apply Z.mod_pos_bound. reflexivity. Qed.
Lemma hi_half : forall w, half (hi w). Proof. intros. unfold hi. rewrite land_lomask. apply Z.mod_pos_bound. reflexivity. Qed.
Lemma hi_lo : forall w, word w -> w = hi w * HW + lo w.
Proof. intros. rewrite hi_div, lo_mod by auto. rewrite Z.mul_comm. apply Z.div_mod. discriminate. Qed.
Lemma half_word : forall x, half x -> word x.
Proof. unfold half, word. intros. rewrite W_HW. pose proof HW_big. nia. Qed.
Lemma half_mul : forall x y, half x -> half y -> 0 <= x * y <= W - 2 * HW + 1.
Proof. unfold half. intros. rewrite W_HW. nia. Qed.
Lemma half_join : forall x y, half x -> half y -> word (x * HW + y).
Proof. unfold half, word. intros. rewrite W_HW. nia. Qed.

Lemma umul_ok : forall x y, word x -> word y -> exists h l, umul x y = (h, l) /\ word h /\ word l /\ l + W * h = x * y.
Proof.
  intros x y Hx Hy. unfold umul.
  pose proof (hi_lo x Hx) as Ex. pose proof (hi_lo y Hy) as Ey.
  pose proof (lo_half x) as A. pose proof (hi_half x) as B. pose proof (lo_half y) as C. pose proof (hi_half y) as D.
  set (xl := lo x) in *. set (xh := hi x) in *. set (yl := lo y) in *. set (yh := hi y) in *. clearbody xl xh yl yh.
  pose proof (half_mul xl yl A C) as P0. pose proof (half_mul xl yh A D) as P1. pose proof (half_mul xh yl B C) as P2. pose proof (half_mul xh yh B D) as P3.
  assert (Bg : 2 * HW < W) by reflexivity. pose proof HW_big as Hb.
  rewrite (uwrap_small (xl * yl)), (uwrap_small (xl * yh)), (uwrap_small (xh * yl)), (uwrap_small (xh * yh)) by lia.
  assert (S : exists t3 k, uwrap (xl * yh + xh * yl) = t3 /\ word t3 /\ bit01 k /\ t3 + W * k = xl * yh + xh * yl
     /\ (if t3 <? xl * yh then uwrap (xh * yh + HW) else xh * yh) = xh * yh + HW * k).
  { destruct (Z.ltb_spec (xl * yh + xh * yl) W).
    - exists (xl * yh + xh * yl), 0. rewrite uwrap_small by lia. unfold word, bit01. repeat split; try lia.
      rewrite (proj2 (Z.ltb_ge _ _)) by lia. lia.
    - exists (xl * yh + xh * yl - W), 1. rewrite uwrap_sub by lia. unfold word, bit01. repeat split; try lia.
      rewrite (proj2 (Z.ltb_lt _ _)) by lia. rewrite uwrap_small by lia. lia. }
  destruct S as (t3 & k & Et & Wt & Bk & Vt & Eh). rewrite Et, Eh.
  pose proof (hi_lo t3 Wt) as E3. pose proof (lo_half t3) as F. pose proof (hi_half t3) as G. set (tl := lo t3) in *. set (th := hi t3) in *. clearbody tl th.
  assert (Tot : xl * yl + tl * HW + W * (xh * yh + HW * k + th) = x * y).
  { rewrite Ex, Ey. replace (xl * yl + tl * HW + W * (xh * yh + HW * k + th)) with (xl * yl + HW * (tl + th * HW + W * k) + W * (xh * yh)) by (rewrite W_HW; ring).
    replace (tl + th * HW + W * k) with (xl * yh + xh * yl) by lia. rewrite W_HW. ring. }
  unfold ushl. rewrite shiftl32. assert (T4 : 0 <= tl * HW < W) by (unfold half in F; rewrite W_HW; nia). rewrite (uwrap_small (tl * HW)) by auto.
  assert (Xy : 0 <= x * y < W * W) by (unfold word in *; split; [apply Z.mul_nonneg_nonneg; lia|apply Z.mul_lt_mono_nonneg; lia]).
  assert (K0 : 0 <= HW * k) by (destruct Bk; subst k; lia).
  assert (H2 : 0 <= xh * yh + HW * k + th) by (unfold half in G; lia).
  set (hh := xh * yh + HW * k + th) in *. clearbody hh.
  assert (H2' : hh < W) by (apply (Z.mul_lt_mono_pos_l W); [reflexivity|lia]).
  rewrite (uwrap_small hh) by lia.
  destruct (Z.ltb_spec (xl * yl + tl * HW) W).
  - rewrite (uwrap_small (xl * yl + tl * HW)) by lia. rewrite (proj2 (Z.ltb_ge _ _)) by lia.
    eexists _, _. split; [reflexivity|]. unfold word. repeat split; try lia.
  - rewrite (uwrap_sub (xl * yl + tl * HW)) by lia. rewrite (proj2 (Z.ltb_lt _ _)) by lia.
    assert (hh + 1 < W) by (apply (Z.mul_lt_mono_pos_l W); [reflexivity|lia]). rewrite uwrap_small by lia.
    eexists _, _. split; [reflexivity|]. unfold word. repeat split; lia.
Qed.

(** values *)
Lemma value_cons : forall w t, value (w :: t) = w + W * value t. Proof. reflexivity. Qed.
Lemma Wpow_pos : forall n : nat, 0 < W ^ Z.of_nat n. Proof. intros. apply Z.pow_pos_nonneg; [reflexivity|lia]. Qed.
Lemma Wpow_S : forall n : nat, W ^ Z.of_nat (S n) = W * W ^ Z.of_nat n.
Proof. intros. rewrite Nat2Z.inj_succ, Z.pow_succ_r by lia. reflexivity. Qed.
Lemma value_bound : forall ws, Forall word ws -> 0 <= value ws < W ^ Z.of_nat (length ws).
Proof.
  induction 1 as [|w t Hw Ht IH]; [cbn; lia|]. rewrite value_cons. cbn [length]. rewrite Wpow_S. unfold word in Hw. nia.
Qed.
Lemma value_app : forall a b, value (a ++ b) = value a + W ^ Z.of_nat (length a) * value b.
Proof.
  induction a as [|x a IH]; intros b. { cbn [app length value]. rewrite Z.pow_0_r. lia. }
  cbn [app length]. rewrite !value_cons, IH, Wpow_S. ring.
Qed.
Lemma value_repeat0 : forall n, value (repeat 0 n) = 0.
Proof. induction n; [reflexivity|]. cbn [repeat]. rewrite value_cons, IHn. lia. Qed.
Lemma word0 : word 0. Proof. unfold word; pose proof W_pos; lia. Qed.
Lemma Forall_repeat0 : forall n, Forall word (repeat 0 n).
Proof. induction n; constructor; auto using word0. Qed.
Lemma value_snoc : forall a x, value (a ++ [x]) = value a + W ^ Z.of_nat (length a) * x.
Proof. intros. rewrite value_app. cbn [value]. rewrite Z.mul_0_r, Z.add_0_r. reflexivity. Qed.
Lemma value_hd_tl : forall ws, value ws = hd 0 ws + W * value (tl ws).
Proof. destruct ws; [reflexivity|]. cbn [hd tl]. apply value_cons. Qed.
Lemma word_hd : forall ws, Forall word ws -> word (hd 0 ws).
Proof. destruct 1; cbn; auto using word0. Qed.
Lemma word_tl : forall ws, Forall word ws -> Forall word (tl ws).
Proof. destruct 1; cbn; auto. Qed.

(** random access *)
Lemma upd_length : forall ws i v, length (upd ws i v) = length ws.
Proof. induction ws; destruct i; intros; cbn; auto. Qed.
Lemma nth_upd : forall ws i j v, (i < length ws)%nat -> nth j (upd ws i v) 0 = if Nat.eqb j i then v else nth j ws 0.
Proof.
  induction ws; intros i j v H; cbn [length] in H; [lia|]. destruct i, j; cbn [upd nth Nat.eqb]; auto. apply IHws. lia.
Qed.
Lemma upd_words : forall ws i v, Forall word ws -> word v -> Forall word (upd ws i v).
Proof. induction ws; intros i v H Hv; [constructor|]. inversion H; subst. destruct i; cbn [upd]; constructor; auto. Qed.
Lemma value_upd : forall ws i v, (i < length ws)%nat -> value (upd ws i v) = value ws + (v - nth i ws 0) * W ^ Z.of_nat i.
Proof.
  induction ws; intros i v H; cbn [length] in H; [lia|]. destruct i; cbn [upd nth].
  - rewrite !value_cons. cbn [Z.of_nat]. rewrite Z.pow_0_r. lia.
  - rewrite !value_cons, IHws, Wpow_S by lia. ring.
Qed.
Lemma rd_ok : forall ws i, (i < length ws)%nat -> rd ws i = Ok (nth i ws 0).
Proof. intros. unfold rd. rewrite (nth_error_nth' ws 0) by auto. reflexivity. Qed.
Lemma wr_ok : forall ws i v, (i < length ws)%nat -> wr ws i v = Ok (upd ws i v).
Proof. intros. unfold wr. now rewrite (proj2 (Nat.ltb_lt _ _)). Qed.
Lemma word_nth : forall ws i, Forall word ws -> word (nth i ws 0).
Proof.
  intros ws i H. destruct (Nat.ltb_spec i (length ws)). { apply Forall_nth; auto. } rewrite nth_overflow by lia. apply word0.
Qed.
Lemma nth_value : forall ws k, Forall word ws -> nth k ws 0 = value ws / W ^ Z.of_nat k mod W.
Proof.
  induction ws as [|w t IH]; intros k H. { cbn [value]. pose proof (Wpow_pos k). rewrite Z.div_0_l, Z.mod_0_l by (discriminate || lia). destruct k; reflexivity. }
  inversion H; subst. rewrite value_cons. destruct k; cbn [nth].
  - cbn [Z.of_nat]. rewrite Z.pow_0_r, Z.div_1_r, Z.mul_comm, Z.mod_add by discriminate. symmetry. now apply Z.mod_small.
  - rewrite Wpow_S, IH by auto. rewrite <- Z.div_div by (pose proof (Wpow_pos k); discriminate || lia). f_equal. f_equal.
    rewrite Z.mul_comm, Z.div_add by discriminate. rewrite (Z.div_small w W) by auto. reflexivity.
Qed.
Lemma value_ext : forall ws X, (forall k, (k < length ws)%nat -> nth k ws 0 = X / W ^ Z.of_nat k mod W) -> value ws = X mod W ^ Z.of_nat (length ws).
Proof.
  induction ws as [|w t IH]; intros X H. { cbn. now rewrite Z.mod_1_r. }
  cbn [length]. rewrite value_cons, Wpow_S, (IH (X / W)).
  - pose proof (H 0%nat ltac:(cbn; lia)) as E. cbn [nth Z.of_nat] in E. rewrite Z.pow_0_r, Z.div_1_r in E. rewrite E.
    rewrite Z.rem_mul_r by (discriminate || apply Wpow_pos). reflexivity.
  - intros k Hk. pose proof (H (S k) ltac:(cbn; lia)) as E. cbn [nth] in E. rewrite E, Wpow_S. f_equal. rewrite Z.div_div; auto; try discriminate. apply Wpow_pos.
Qed.

Lemma make_bignum_ok : forall n, Z.of_nat n <= MAX_DIGITS -> make_bignum n = Ok (repeat 0 n).
Proof. intros. unfold make_bignum. now rewrite (proj2 (Z.ltb_ge _ _)). Qed.

(** two's complement *)
Lemma twoscmpl_loop_ok : forall ws c, Forall word ws -> bit01 c ->
  Forall word (twoscmpl_loop c ws) /\ length (twoscmpl_loop c ws) = length ws
  /\ value (twoscmpl_loop c ws) = (c - 1 - value ws) mod W ^ Z.of_nat (length ws).
Proof.
  induction ws as [|w t IH]; intros c H Hc.
  { cbn. repeat split; auto. now rewrite Z.mod_1_r. }
  inversion H; subst. cbn [twoscmpl_loop]. assert (Wn : word (W - 1 - w)) by (unfold word in *; lia).
  destruct (uadd_ok c (W - 1 - w) 0 Wn word0 Hc) as (r & c1 & E & Wr & B1 & V). rewrite E.
  destruct (IH c1 H3 B1) as (F & L & V2). split; [constructor; auto|]. cbn [length]. rewrite L. split; auto.
  rewrite !value_cons, V2, Wpow_S. replace (c - 1 - (w + W * value t)) with (r + (c1 - 1 - value t) * W) by lia.
  rewrite Z.rem_mul_r by (discriminate || apply Wpow_pos).
  rewrite Z.mod_add, Z.div_add by discriminate. rewrite (Z.mod_small r), (Z.div_small r) by auto. reflexivity.
Qed.
Lemma twoscmpl_ok : forall ws, Forall word ws ->
  Forall word (twoscmpl ws) /\ length (twoscmpl ws) = length ws
  /\ value (twoscmpl ws) = (- value ws) mod W ^ Z.of_nat (length ws).
Proof. intros. destruct (twoscmpl_loop_ok ws 1 H) as (A & B & C); [right; auto|]. repeat split; auto. Qed.

(** addition of magnitudes *)
Lemma add_int_ok : forall n c xs ys, Forall word xs -> Forall word ys -> bit01 c ->
  Forall word (add_int n c xs ys) /\ length (add_int n c xs ys) = n
  /\ value (add_int n c xs ys) = (value xs + value ys + c) mod W ^ Z.of_nat n.
Proof.
  induction n; intros c xs ys Hx Hy Hc. { cbn. repeat split; auto. now rewrite Z.mod_1_r. }
  cbn [add_int]. destruct (uadd_ok c _ _ (word_hd xs Hx) (word_hd ys Hy) Hc) as (r & c1 & E & Wr & B1 & V). rewrite E.
  destruct (IHn c1 _ _ (word_tl _ Hx) (word_tl _ Hy) B1) as (F & L & V2). split; [constructor; auto|]. cbn [length]. rewrite L. split; auto.
  rewrite value_cons, V2, Wpow_S, (value_hd_tl xs), (value_hd_tl ys).
  replace (hd 0 xs + W * value (tl xs) + (hd 0 ys + W * value (tl ys)) + c) with (r + (value (tl xs) + value (tl ys) + c1) * W) by lia.
  rewrite Z.rem_mul_r by (discriminate || apply Wpow_pos). rewrite Z.mod_add, Z.div_add by discriminate.
  rewrite (Z.mod_small r), (Z.div_small r) by auto. reflexivity.
Qed.
Lemma sub_int_loop_ok : forall n c xs ys, Forall word xs -> Forall word ys -> bit01 c ->
  (length xs <= n)%nat -> (length ys <= n)%nat ->
  exists ws cf, sub_int_loop n c xs ys = (ws, cf) /\ Forall word ws /\ length ws = n /\ bit01 cf
  /\ value ws - W ^ Z.of_nat n * cf = value xs - value ys - c.
Proof.
  induction n; intros c xs ys Hx Hy Hc Lx Ly.
  { destruct xs, ys; cbn [length] in *; try lia. exists [], c. cbn [sub_int_loop value length Z.of_nat]. rewrite Z.pow_0_r. repeat split; auto; lia. }
  cbn [sub_int_loop]. destruct (usub_ok c _ _ (word_hd xs Hx) (word_hd ys Hy) Hc) as (r & c1 & E & Wr & B1 & V). rewrite E.
  destruct (IHn c1 _ _ (word_tl _ Hx) (word_tl _ Hy) B1) as (ws & cf & E2 & F & L & B & V2).
  { destruct xs; cbn [length tl] in *; lia. } { destruct ys; cbn [length tl] in *; lia. }
  rewrite E2. exists (r :: ws), cf. repeat split; auto. { cbn; lia. } rewrite value_cons, Wpow_S, (value_hd_tl xs), (value_hd_tl ys). lia.
Qed.
Lemma sub_int_ok : forall n s xs ys, Forall word xs -> Forall word ys -> (length xs <= n)%nat -> (length ys <= n)%nat ->
  s = 1 \/ s = -1 ->
  let b := sub_int n s xs ys in
  (sign b = 1 \/ sign b = -1) /\ Forall word (words b) /\ length (words b) = n /\ sign b * value (words b) = s * (value xs - value ys).
Proof.
  intros n s xs ys Hx Hy Lx Ly Hs b. subst b. unfold sub_int.
  destruct (sub_int_loop_ok n 0 xs ys Hx Hy (or_introl eq_refl) Lx Ly) as (ws & cf & E & F & L & B & V). rewrite E.
  destruct (Z.eqb_spec cf 0); cbn [sign words].
  - subst. repeat split; auto. f_equal. lia.
  - destruct (twoscmpl_ok ws F) as (F2 & L2 & V2). repeat split; auto; try lia. rewrite V2, L. destruct B as [|B]; [contradiction|]. subst cf.
    pose proof (value_bound ws F) as Bw. rewrite L in Bw. pose proof (Wpow_pos n).
    assert (Bx := value_bound _ Hx). assert (By := value_bound _ Hy).
    assert (W ^ Z.of_nat (length ys) <= W ^ Z.of_nat n) by (apply Z.pow_le_mono_r; [reflexivity|lia]).
    assert (value ws <> 0) by lia.
    rewrite (Z.mod_opp_l_nz (value ws)); try lia. 2: { rewrite Z.mod_small; lia. }
    rewrite Z.mod_small by lia. lia.
Qed.

Lemma last_app_max : forall xs, Forall word xs -> xs <> [] -> last xs 0 <> W - 1 -> value xs < W ^ Z.of_nat (length xs) - W ^ Z.of_nat (length xs - 1).
Proof.
  intros xs H Hn Hl. destruct (exists_last Hn) as (a & x & ->). rewrite last_last in Hl. rewrite value_snoc, app_length. cbn [length].
  replace (length a + 1)%nat with (S (length a)) by lia. replace (S (length a) - 1)%nat with (length a) by lia. rewrite Wpow_S.
  apply Forall_app in H as [Ha Hx]. inversion Hx; subst. pose proof (value_bound a Ha). unfold word in H1. pose proof (Wpow_pos (length a)). nia.
Qed.
Lemma safe_size_ok : forall xs ys, Forall word xs -> Forall word ys -> xs <> [] -> ys <> [] ->
  (length xs <= safe_size_for_add xs ys)%nat /\ (length ys <= safe_size_for_add xs ys)%nat
  /\ (safe_size_for_add xs ys <= S (Nat.max (length xs) (length ys)))%nat
  /\ value xs + value ys < W ^ Z.of_nat (safe_size_for_add xs ys).
Proof.
  assert (Main : forall a b, Forall word a -> Forall word b -> (length b < length a)%nat ->
     value a + value b < W ^ Z.of_nat (if last a 0 =? W - 1 then S (length a) else length a)).
  { intros a b Ha Hb L. pose proof (value_bound a Ha). pose proof (value_bound b Hb).
    assert (W ^ Z.of_nat (length b) <= W ^ Z.of_nat (length a - 1)) by (apply Z.pow_le_mono_r; [reflexivity|lia]).
    assert (W ^ Z.of_nat (length a - 1) <= W ^ Z.of_nat (length a)) by (apply Z.pow_le_mono_r; [reflexivity|lia]).
    destruct (Z.eqb_spec (last a 0) (W - 1)).
    - rewrite Wpow_S. pose proof W_big. nia.
    - assert (a <> []) by (intros ->; cbn in L; lia). pose proof (last_app_max a Ha H3 n). lia. }
  intros xs ys Hx Hy Nx Ny. unfold safe_size_for_add.
  destruct (Nat.ltb_spec (length ys) (length xs)) as [L|L].
  - pose proof (Main xs ys Hx Hy L). destruct (last xs 0 =? W - 1); repeat split; auto; lia.
  - destruct (Nat.ltb_spec (length xs) (length ys)) as [L2|L2].
    + pose proof (Main ys xs Hy Hx L2). destruct (last ys 0 =? W - 1); repeat split; try lia.
    + assert (E : length xs = length ys) by lia. repeat split; try lia. rewrite Wpow_S. pose proof (value_bound xs Hx). pose proof (value_bound ys Hy). rewrite E in *. pose proof W_big. nia.
Qed.

(** normalisation *)
Lemma mkint_id : forall v, FIX_MIN <= v <= FIX_MAX -> mkint v = Fix v.
Proof. intros. unfold mkint, FIX_MIN, FIX_MAX in *. f_equal. rewrite Z.mod_small by lia. lia. Qed.
Lemma norm_top_spec : forall ws i, (i < length ws)%nat -> value (skipn (S i) ws) = 0 -> Forall word ws ->
  let t := norm_top i ws in (t <= i)%nat /\ value (firstn (S t) ws) = value ws /\ (t = O \/ nth t ws 0 <> 0).
Proof.
  intros ws i. induction i; intros Hi Z0 F; cbn [norm_top].
  - repeat split; auto. rewrite <- (firstn_skipn 1 ws) at 2. rewrite value_app, Z0. lia.
  - destruct (Z.eqb_spec (nth (S i) ws 0) 0) as [E|E].
    + assert (Z1 : value (skipn (S i) ws) = 0).
      { assert (Sk : skipn (S i) ws = nth (S i) ws 0 :: skipn (S (S i)) ws).
        { clear - Hi. revert i Hi. induction ws; intros; cbn [length] in *; [lia|]. destruct i; cbn [skipn nth].
          - destruct ws; cbn [length] in *; [lia|]. reflexivity.
          - apply (IHws i). lia. }
        rewrite Sk, value_cons, E, Z0. lia. }
      destruct (IHi ltac:(lia) Z1 F) as (A & B & C). repeat split; auto.
    + repeat split; auto. rewrite <- (firstn_skipn (S (S i)) ws) at 2. rewrite value_app, Z0. lia.
Qed.
Lemma last_nth : forall (ws : list Z), ws <> [] -> last ws 0 = nth (length ws - 1) ws 0.
Proof.
  intros ws H. destruct (exists_last H) as (a & x & ->). rewrite last_last, app_length. cbn [length].
  rewrite app_nth2 by lia. replace (length a + 1 - 1 - length a)%nat with O by lia. reflexivity.
Qed.
Lemma nonzero_top_big : forall ws, Forall word ws -> ws <> [] -> last ws 0 <> 0 -> W ^ Z.of_nat (length ws - 1) <= value ws.
Proof.
  intros ws H Hn Hl. destruct (exists_last Hn) as (a & x & ->). rewrite last_last in Hl. rewrite value_snoc, app_length. cbn [length].
  replace (length a + 1 - 1)%nat with (length a) by lia. apply Forall_app in H as [Ha Hx]. inversion Hx; subst. pose proof (value_bound a Ha).
  unfold word in H1. pose proof (Wpow_pos (length a)). nia.
Qed.
Lemma normalize_ok : forall b, Forall word (words b) -> words b <> [] -> sign b = 1 \/ sign b = -1 ->
  canonical (normalize b) /\ int_of (normalize b) = sign b * value (words b).
Proof.
  intros [s ws] F Hn Hs. cbn [sign words] in *. unfold normalize. cbn [sign words]. destruct ws as [|w0 t0] eqn:Ew; [contradiction|]. rewrite <- Ew in *.
  assert (Lw : (0 < length ws)%nat) by (rewrite Ew; cbn; lia).
  destruct (norm_top_spec ws (length ws - 1) ltac:(lia)) as (A & B & C); auto.
  { rewrite skipn_all2 by lia. reflexivity. }
  set (i := norm_top (length ws - 1) ws) in *.
  assert (Fi : Forall word (firstn (S i) ws)).
  { apply Forall_forall. intros x Hx. rewrite Forall_forall in F. apply F. rewrite <- (firstn_skipn (S i) ws). apply in_or_app; auto. }
  assert (Li : length (firstn (S i) ws) = S i) by (rewrite firstn_length; lia).
  assert (Lst : last (firstn (S i) ws) 0 = nth i ws 0).
  { rewrite last_nth by (intros X; rewrite X in Li; discriminate). rewrite Li. replace (S i - 1)%nat with i by lia.
    rewrite <- (firstn_skipn (S i) ws) at 2. rewrite app_nth1 by lia. reflexivity. }
  assert (Keep : nth i ws 0 <> 0 -> (i = O -> (s = 1 -> FIX_MAX < w0) /\ (s = -1 -> - FIX_MIN < w0)) ->
     canonical (Bn (Big s (firstn (S i) ws))) /\ int_of (Bn (Big s (firstn (S i) ws))) = s * value ws).
  { intros Nz Hi. cbn [canonical int_of sign words]. rewrite B. split; auto. split; auto. split; [now apply words_word|]. split; [congruence|].
    unfold in_fixnum_range. destruct (Nat.eqb_spec i 0) as [E0|E0].
    - specialize (Hi E0) as [Hp Hm]. assert (V : value ws = w0).
      { rewrite <- B, E0, Ew. cbn [firstn value]. lia. }
      rewrite V. unfold FIX_MAX, FIX_MIN in *. change (2 ^ 61) with 2305843009213693952.
      destruct Hs; subst s; [specialize (Hp eq_refl)|specialize (Hm eq_refl)]; lia.
    - pose proof (nonzero_top_big (firstn (S i) ws) Fi ltac:(intros X; rewrite X in Li; discriminate) ltac:(congruence)) as G.
      rewrite Li, B in G. assert (W ^ 1 <= W ^ Z.of_nat (S i - 1)) by (apply Z.pow_le_mono_r; [reflexivity|lia]). rewrite Z.pow_1_r in H. pose proof W_big.
      change (2 ^ 61) with 2305843009213693952. destruct Hs; subst; lia. }
  destruct i as [|i'] eqn:Ei.
  2: { apply Keep. { destruct C as [C|C]; [discriminate|exact C]. } intros X; discriminate. }
  assert (V : value ws = w0). { rewrite <- B, Ew. cbn [firstn value]. lia. }
  assert (Ww : word w0) by (rewrite Ew in F; inversion F; auto). unfold word in Ww.
  assert (N0 : nth 0 ws 0 = w0) by (rewrite Ew; reflexivity).
  rewrite (proj2 (Z.eqb_neq s 0)) by lia.
  destruct Hs; subst s; cbn [Z.ltb Z.compare andb].
  - destruct (Z.leb_spec w0 FIX_MAX) as [L|L].
    + rewrite mkint_id by (unfold FIX_MIN in *; lia). cbn [canonical int_of]. unfold in_fixnum_range, FIX_MAX in *. change (2 ^ 61) with 2305843009213693952. split; [lia|]. lia.
    + apply Keep; [|intros; split; intros; [auto|lia]]. rewrite N0. unfold FIX_MAX in *. lia.
  - destruct (Z.leb_spec w0 (- FIX_MIN)) as [L|L].
    + rewrite mkint_id by (unfold FIX_MIN, FIX_MAX in *; lia). cbn [canonical int_of]. unfold in_fixnum_range, FIX_MIN in *. change (2 ^ 61) with 2305843009213693952. split; [lia|]. lia.
    + apply Keep; [|intros; split; intros; [lia|auto]]. rewrite N0. unfold FIX_MIN in *. lia.
Qed.
