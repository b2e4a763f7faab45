(** Bignum comparison, addition, subtraction, shifts and multiplication. *)
From Coq Require Import List Bool ZArith Lia.
From Verif Require Import Outcome BignumModel IntSpec BignumProofs.
Import ListNotations.
Local Open Scope Z_scope.
Ltac Zify.zify_post_hook ::= idtac.

(** a bignum object, possibly denormalised *)
Definition wfb (b : bignum) : Prop := (sign b = 1 \/ sign b = -1) /\ Forall word (words b) /\ words b <> [].
Definition bval (b : bignum) : Z := sign b * value (words b).
Definition nw (b : bignum) : Z := Z.of_nat (length (words b)).

Lemma canonical_wfb : forall b, canonical (Bn b) -> wfb b /\ last (words b) 0 <> 0 /\ 2305843009213693952 <= value (words b).
Proof.
  intros b (S & F & L & R). apply words_word in F. assert (N : words b <> []) by (intros X; rewrite X in L; cbn in L; lia).
  repeat split; auto. cbn [int_of] in R. unfold in_fixnum_range in R. change (2 ^ 61) with 2305843009213693952 in R.
  pose proof (value_bound _ F). destruct S as [S|S]; rewrite S in R; lia.
Qed.
Lemma canonical_wfb' : forall b, canonical (Bn b) -> wfb b. Proof. intros b H. apply (canonical_wfb b H). Qed.
Lemma of_si_wfb : forall v, -9223372036854775808 <= v <= 9223372036854775807 -> wfb (bignum_of_si v) /\ bval (bignum_of_si v) = v /\ nw (bignum_of_si v) = 1.
Proof.
  intros v H. unfold bignum_of_si, wfb, bval, nw. pose proof W_big. destruct (Z.ltb_spec v 0); cbn [sign words value length].
  - repeat split; try lia; try discriminate. repeat constructor; lia.
  - repeat split; try lia; try discriminate. repeat constructor; lia.
Qed.

Lemma cmp_down_ok : forall xs ys, Forall word xs -> Forall word ys -> length xs = length ys ->
  cmp_down xs ys = match value (rev xs) ?= value (rev ys) with Lt => -1 | Eq => 0 | Gt => 1 end.
Proof.
  induction xs as [|x xt IH]; intros [|y yt] Hx Hy L; try discriminate; [reflexivity|]. cbn [length] in L. injection L as L.
  inversion Hx; inversion Hy; subst. cbn [cmp_down rev]. rewrite !value_snoc, !rev_length, L.
  assert (Bx : 0 <= value (rev xt) < W ^ Z.of_nat (length yt)).
  { rewrite <- L, <- rev_length. apply value_bound. now apply Forall_rev. }
  assert (By : 0 <= value (rev yt) < W ^ Z.of_nat (length yt)).
  { rewrite <- rev_length. apply value_bound. now apply Forall_rev. }
  destruct (Z.ltb_spec x y). { rewrite (proj2 (Z.compare_lt_iff _ _)); auto. nia. }
  destruct (Z.ltb_spec y x). { rewrite (proj2 (Z.compare_gt_iff _ _)); auto. nia. }
  assert (x = y) by lia. subst y. rewrite IH by auto. rewrite !(Z.add_comm (value _)), Zcompare_plus_compat. reflexivity.
Qed.
Lemma value_len_lt : forall xs ys, Forall word xs -> Forall word ys -> last ys 0 <> 0 -> (length xs < length ys)%nat -> value xs < value ys.
Proof.
  intros xs ys Hx Hy Hl L. assert (ys <> []) by (intros ->; cbn in L; lia). pose proof (nonzero_top_big ys Hy H Hl). pose proof (value_bound xs Hx).
  assert (W ^ Z.of_nat (length xs) <= W ^ Z.of_nat (length ys - 1)) by (apply Z.pow_le_mono_r; [reflexivity|lia]). lia.
Qed.
Definition cmpz (a b : Z) : Z := match a ?= b with Lt => -1 | Eq => 0 | Gt => 1 end.
Lemma abscmp_ok : forall xs ys, Forall word xs -> Forall word ys -> last xs 0 <> 0 -> last ys 0 <> 0 -> bignum_abscmp xs ys = cmpz (value xs) (value ys).
Proof.
  intros xs ys Hx Hy Lx Ly. unfold bignum_abscmp, cmpz.
  destruct (Nat.ltb_spec (length xs) (length ys)). { rewrite (proj2 (Z.compare_lt_iff _ _)); auto. now apply value_len_lt. }
  destruct (Nat.ltb_spec (length ys) (length xs)). { rewrite (proj2 (Z.compare_gt_iff _ _)); auto. now apply value_len_lt. }
  rewrite cmp_down_ok, !rev_involutive; auto using Forall_rev. rewrite !rev_length. lia.
Qed.
Lemma cmpz_spec : forall a b, cmpz a b = if a <? b then -1 else if b <? a then 1 else 0.
Proof.
  intros. unfold cmpz. destruct (Z.compare_spec a b); subst.
  - now rewrite Z.ltb_irrefl. - now rewrite (proj2 (Z.ltb_lt _ _)). - rewrite (proj2 (Z.ltb_ge _ _)), (proj2 (Z.ltb_lt _ _)) by lia. auto.
Qed.
(** one of the operands may be a fixnum made into a bignum *)
Definition tight (b : bignum) : Prop := last (words b) 0 <> 0 \/ length (words b) = 1%nat.
Lemma bignum_cmp_ok : forall bx by_, wfb bx -> wfb by_ -> tight bx -> tight by_ -> (bval bx <> 0 \/ bval by_ <> 0) ->
  bignum_cmp bx by_ = cmpz (bval bx) (bval by_).
Proof.
  intros [sx xs] [sy ys] (Sx & Fx & Nx) (Sy & Fy & Ny) Tx Ty NZ. unfold bignum_cmp, bval, tight in *. cbn [sign words] in *.
  pose proof (value_bound xs Fx) as Bx. pose proof (value_bound ys Fy) as By.
  assert (Tl : forall a b, Forall word a -> Forall word b -> a <> [] -> (last b 0 <> 0 \/ length b = 1%nat) -> (length a < length b)%nat -> value a < value b).
  { intros a b Fa Fb Na [T|T] L; [now apply value_len_lt|]. destruct a; [contradiction|cbn in L; lia]. }
  rewrite cmpz_spec.
  destruct (Z.ltb_spec sx sy) as [L1|L1]. { assert (sx = -1 /\ sy = 1) as [-> ->] by lia. rewrite (proj2 (Z.ltb_lt _ _)); auto. lia. }
  destruct (Z.ltb_spec sy sx) as [L2|L2]. { assert (sx = 1 /\ sy = -1) as [-> ->] by lia. rewrite (proj2 (Z.ltb_ge _ _)), (proj2 (Z.ltb_lt _ _)) by lia. auto. }
  assert (sy = sx) by lia. subst sy.
  destruct (Nat.ltb_spec (length xs) (length ys)) as [L3|L3].
  { pose proof (Tl xs ys Fx Fy Nx Ty L3). destruct Sx; subst sx; cbn [Z.ltb Z.compare].
    - rewrite (proj2 (Z.ltb_lt _ _)) by lia; auto.
    - rewrite (proj2 (Z.ltb_ge _ _)), (proj2 (Z.ltb_lt _ _)) by lia; auto. }
  destruct (Nat.ltb_spec (length ys) (length xs)) as [L4|L4].
  { pose proof (Tl ys xs Fy Fx Ny Tx L4). destruct Sx; subst sx; cbn [Z.ltb Z.compare].
    - rewrite (proj2 (Z.ltb_ge _ _)), (proj2 (Z.ltb_lt _ _)) by lia; auto.
    - rewrite (proj2 (Z.ltb_lt _ _)) by lia; auto. }
  rewrite cmp_down_ok, !rev_involutive by (auto using Forall_rev; rewrite !rev_length; lia).
  destruct Sx; subst sx; cbn [Z.ltb Z.compare]; destruct (Z.compare_spec (value xs) (value ys)) as [E|E|E]; cbn [Z.eqb Z.opp];
    rewrite ?E, ?Z.ltb_irrefl; auto; repeat (rewrite ?(proj2 (Z.ltb_ge _ _)) by lia; rewrite ?(proj2 (Z.ltb_lt _ _)) by lia); auto.
Qed.

Lemma sign_mul_eq : forall a b : Z, (a = 1 \/ a = -1) -> (b = 1 \/ b = -1) -> a <> b -> b = - a. Proof. lia. Qed.
Lemma wfb_num : forall b, wfb b -> canonical (normalize b) /\ int_of (normalize b) = bval b.
Proof. intros b (S & F & N). now apply normalize_ok. Qed.

Lemma add_raw_ok : forall bx by_, wfb bx -> wfb by_ -> nw bx < MAX_DIGITS -> nw by_ < MAX_DIGITS ->
  exists r, bignum_add_raw bx by_ = Ok r /\ wfb r /\ bval r = bval bx + bval by_.
Proof.
  intros [sx xs] [sy ys] (Sx & Fx & Nx) (Sy & Fy & Ny) Lx Ly. unfold bignum_add_raw, bval, wfb, nw in *. cbn [sign words] in *.
  destruct (safe_size_ok xs ys Fx Fy Nx Ny) as (A & B & C & D). set (n := safe_size_for_add xs ys) in *.
  rewrite make_bignum_ok by lia. cbn [bind]. assert (0 < n)%nat by (destruct xs; [contradiction|cbn in A; lia]).
  destruct (Z.eqb_spec sx sy) as [E|E].
  - subst sy. destruct (add_int_ok n 0 xs ys Fx Fy (or_introl eq_refl)) as (F & L & V). eexists; split; [reflexivity|]. cbn [sign words].
    split. { repeat split; auto. intros X; rewrite X in L; cbn in L; lia. }
    rewrite V, Z.add_0_r, Z.mod_small. { lia. } pose proof (value_bound xs Fx); pose proof (value_bound ys Fy). lia.
  - destruct (sub_int_ok n sx xs ys Fx Fy A B Sx) as (S & F & L & V). eexists; split; [reflexivity|].
    split. { repeat split; auto. intros X; rewrite X in L; cbn in L; lia. }
    rewrite V, (sign_mul_eq sx sy) by auto. lia.
Qed.
Lemma sub_raw_ok : forall bx by_, wfb bx -> wfb by_ -> nw bx < MAX_DIGITS -> nw by_ < MAX_DIGITS ->
  exists r, bignum_sub_raw bx by_ = Ok r /\ wfb r /\ bval r = bval bx - bval by_.
Proof.
  intros [sx xs] [sy ys] (Sx & Fx & Nx) (Sy & Fy & Ny) Lx Ly. unfold bignum_sub_raw, bval, wfb, nw in *. cbn [sign words] in *.
  destruct (safe_size_ok xs ys Fx Fy Nx Ny) as (A & B & C & D). set (n := safe_size_for_add xs ys) in *.
  rewrite make_bignum_ok by lia. cbn [bind]. assert (0 < n)%nat by (destruct xs; [contradiction|cbn in A; lia]).
  destruct (Z.eqb_spec sx sy) as [E|E].
  - subst sy. destruct (sub_int_ok n sx xs ys Fx Fy A B Sx) as (S & F & L & V). eexists; split; [reflexivity|].
    split. { repeat split; auto. intros X; rewrite X in L; cbn in L; lia. }
    rewrite V. lia.
  - destruct (add_int_ok n 0 xs ys Fx Fy (or_introl eq_refl)) as (F & L & V). eexists; split; [reflexivity|]. cbn [sign words].
    split. { repeat split; auto. intros X; rewrite X in L; cbn in L; lia. }
    rewrite V, Z.add_0_r, Z.mod_small. { rewrite (sign_mul_eq sx sy) by auto. lia. } pose proof (value_bound xs Fx); pose proof (value_bound ys Fy). lia.
Qed.

Lemma add_si_loop_add : forall xs c y, Forall word xs -> word y -> bit01 c ->
  Forall word (add_si_loop uadd c y xs) /\ add_si_loop uadd c y xs <> []
  /\ (xs <> [] \/ y = 0 -> value (add_si_loop uadd c y xs) = value xs + y + c).
Proof.
  induction xs as [|x t IH]; intros c y F Hy Hc.
  { cbn [add_si_loop value]. split; [|split; [discriminate|]]. - repeat constructor; destruct Hc; subst; pose proof W_big; lia.
    - intros [X|X]; [contradiction|]. subst. lia. }
  inversion F; subst. cbn [add_si_loop]. destruct (uadd_ok c x y H1 Hy Hc) as (r & c1 & E & Wr & B & V). rewrite E.
  destruct (IH c1 0 H2 word0 B) as (F2 & N2 & V2). split; [constructor; auto|]. split; [discriminate|]. intros _.
  rewrite !value_cons, V2 by auto. lia.
Qed.
Lemma add_si_loop_sub : forall xs c y, Forall word xs -> word y -> bit01 c -> 0 <= value xs - y - c ->
  Forall word (add_si_loop usub c y xs) /\ add_si_loop usub c y xs <> []
  /\ value (add_si_loop usub c y xs) = value xs - y - c.
Proof.
  induction xs as [|x t IH]; intros c y F Hy Hc P.
  { cbn [value] in P. unfold word in Hy. assert (y = 0 /\ c = 0) as [-> ->] by (destruct Hc; lia). cbn. repeat split; try discriminate. repeat constructor; pose proof W_big; lia. }
  inversion F; subst. cbn [add_si_loop]. destruct (usub_ok c x y H1 Hy Hc) as (r & c1 & E & Wr & B & V). rewrite E.
  rewrite value_cons in P. assert (0 <= value t - 0 - c1).
  { pose proof (value_bound t H2). unfold word in *. destruct B; subst; [lia|]. assert (0 < W * value t) by lia. pose proof W_pos. nia. }
  destruct (IH c1 0 H2 word0 B H) as (F2 & N2 & V2). split; [constructor; auto|]. split; [discriminate|].
  rewrite !value_cons, V2. lia.
Qed.
Lemma add_si_raw_ok : forall b y, wfb b -> nw b < MAX_DIGITS -> Z.abs y <= value (words b) -> Z.abs y <= 2305843009213693952 ->
  exists r, bignum_add_si_raw b y = Ok r /\ wfb r /\ bval r = bval b + y.
Proof.
  intros [s ws] y (S & F & N) L Y Yb. unfold bignum_add_si_raw, bval, wfb, nw in *. cbn [sign words] in *.
  rewrite make_bignum_ok by lia. cbn [bind]. pose proof W_big.
  assert (Ya : uwrap (if y <? 0 then - y else y) = Z.abs y).
  { rewrite uwrap_small; destruct (Z.ltb_spec y 0); lia. }
  rewrite Ya. assert (Wy : word (Z.abs y)) by (unfold word; lia).
  eexists; split; [reflexivity|]. cbn [sign words].
  destruct (Z.eqb_spec s (if y <? 0 then -1 else 1)) as [E|E].
  - destruct (add_si_loop_add ws 0 (Z.abs y) F Wy (or_introl eq_refl)) as (F2 & N2 & V2). repeat split; auto. rewrite V2 by auto. destruct (Z.ltb_spec y 0); lia.
  - destruct (add_si_loop_sub ws 0 (Z.abs y) F Wy (or_introl eq_refl) ltac:(lia)) as (F2 & N2 & V2). repeat split; auto. rewrite V2. destruct (Z.ltb_spec y 0); lia.
Qed.

(** ** shifts *)
Lemma nth_wr_down : forall n f off br k, nth k (wr_down n f off br) 0 =
  if (Nat.leb off k && Nat.ltb (k - off) n && Nat.ltb k (length br))%bool then f (k - off)%nat else nth k br 0.
Proof.
  induction n; intros f off br k; cbn [wr_down].
  { replace (Nat.ltb (k - off) 0) with false by (symmetry; apply Nat.ltb_ge; lia). rewrite andb_false_r. reflexivity. }
  rewrite IHn. assert (L : length (if Nat.ltb (n + off) (length br) then upd br (n + off) (f n) else br) = length br) by (destruct (Nat.ltb (n + off) (length br)); rewrite ?upd_length; auto).
  rewrite L. destruct (Nat.leb_spec off k); cbn [andb]; [|destruct (Nat.ltb_spec (n + off) (length br)); auto; rewrite nth_upd by auto; destruct (Nat.eqb_spec k (n + off)); auto; lia].
  destruct (Nat.ltb_spec (k - off) n).
  - rewrite (proj2 (Nat.ltb_lt (k - off) (S n))) by lia. cbn [andb]. destruct (Nat.ltb_spec k (length br)); auto.
    destruct (Nat.ltb_spec (n + off) (length br)); auto. rewrite nth_upd by auto. destruct (Nat.eqb_spec k (n + off)); auto; lia.
  - cbn [andb]. destruct (Nat.ltb_spec (k - off) (S n)); cbn [andb].
    + assert (k = (n + off)%nat) by lia. subst k. destruct (Nat.ltb_spec (n + off) (length br)); auto. rewrite nth_upd by auto. rewrite Nat.eqb_refl. f_equal; lia.
    + destruct (Nat.ltb_spec (n + off) (length br)); auto. rewrite nth_upd by auto. destruct (Nat.eqb_spec k (n + off)); auto; lia.
Qed.
Lemma wr_down_length : forall n f off br, length (wr_down n f off br) = length br.
Proof. induction n; intros; cbn [wr_down]; auto. rewrite IHn. destruct (Nat.ltb (n + off) (length br)); rewrite ?upd_length; auto. Qed.
Lemma clear_down_ok : forall n br, (n <= length br)%nat -> exists r, clear_down n br = Ok r /\ length r = length br
  /\ forall k, nth k r 0 = if Nat.ltb k n then 0 else nth k br 0.
Proof.
  induction n; intros br H; cbn [clear_down]. { exists br. auto. }
  rewrite wr_ok by lia. cbn [bind]. destruct (IHn (upd br n 0)) as (r & E & L & N). { rewrite upd_length; lia. }
  exists r. rewrite upd_length in L. repeat split; auto. intros k. rewrite N, nth_upd by lia.
  destruct (Nat.ltb_spec k n), (Nat.ltb_spec k (S n)), (Nat.eqb_spec k n); auto; lia.
Qed.
Lemma lor_add : forall a b, Z.land a b = 0 -> Z.lor a b = a + b.
Proof. intros. rewrite <- Z.lxor_lor by auto. symmetry. now apply Z.add_nocarry_lxor. Qed.
(** disjoint parts: a multiple of 2^n and something below 2^n *)
Lemma lor_disjoint : forall a b n, 0 <= n -> 0 <= b < 2 ^ n -> Z.lor (a * 2 ^ n) b = a * 2 ^ n + b.
Proof.
  intros a b n Hn Hb. apply lor_add. apply Z.bits_inj'. intros i Hi. rewrite Z.land_spec, Z.bits_0. destruct (Z.ltb_spec i n).
  - rewrite Z.mul_pow2_bits_low by lia. reflexivity.
  - replace (Z.testbit b i) with false; [apply andb_false_r|]. symmetry. destruct (Z.eq_dec b 0) as [->|N0]; [apply Z.bits_0|].
    apply Z.bits_above_log2; [lia|]. assert (Z.log2 b < n) by (apply Z.log2_lt_pow2; lia). lia.
Qed.
Lemma pow2_split : forall n, 0 <= n <= 64 -> 2 ^ n * 2 ^ (64 - n) = W.
Proof. intros. rewrite <- Z.pow_add_r by lia. replace (n + (64 - n)) with 64 by lia. reflexivity. Qed.
Lemma ushl_mod : forall a n, 0 <= n <= 64 -> ushl a n = (a mod 2 ^ (64 - n)) * 2 ^ n.
Proof.
  intros a n Hn. unfold ushl, uwrap. rewrite Z.shiftl_mul_pow2 by lia. rewrite <- (pow2_split n), (Z.mul_comm (2 ^ n)) by lia.
  apply Z.mul_mod_distr_r; apply Z.pow_nonzero; lia.
Qed.
Lemma ushr_div : forall a n, 0 <= n -> ushr a n = a / 2 ^ n. Proof. intros. unfold ushr. now apply Z.shiftr_div_pow2. Qed.
Lemma lor_shift : forall a b n, 0 <= n <= 64 -> word b ->
  Z.lor (ushl a n) (ushr b (64 - n)) = (a mod 2 ^ (64 - n)) * 2 ^ n + b / 2 ^ (64 - n).
Proof.
  intros a b n Hn Hb. rewrite ushl_mod, ushr_div by lia. apply lor_disjoint; [lia|]. unfold word in Hb.
  assert (0 < 2 ^ (64 - n)) by (apply Z.pow_pos_nonneg; lia). split; [apply Z.div_pos; lia|]. apply Z.div_lt_upper_bound; auto.
  rewrite Z.mul_comm, pow2_split by lia. lia.
Qed.
(** word k of X * 2^n, for 0 <= n < 64 *)
Lemma shift_word : forall X n (k : nat), 0 <= n < 64 -> 0 <= X ->
  X * 2 ^ n / W ^ Z.of_nat (S k) mod W = ((X / W ^ Z.of_nat (S k) mod W) mod 2 ^ (64 - n)) * 2 ^ n + (X / W ^ Z.of_nat k mod W) / 2 ^ (64 - n).
Proof.
  intros X n k Hn HX. set (P := W ^ Z.of_nat k). assert (HP : 0 < P) by apply Wpow_pos.
  set (A := 2 ^ (64 - n)). set (B := 2 ^ n). assert (HA : 0 < A) by (apply Z.pow_pos_nonneg; lia). assert (HB : 0 < B) by (apply Z.pow_pos_nonneg; lia).
  assert (AB : B * A = W) by (apply pow2_split; lia). rewrite Wpow_S. fold P.
  (* write X = ((x1 * W) + x0) * P + low *)
  pose proof (Z.div_mod X P ltac:(lia)) as E. pose proof (Z.mod_pos_bound X P HP) as Bl. set (Y := X / P) in *. set (l := X mod P) in *.
  assert (EY : X / (W * P) = Y / W). { unfold Y. rewrite Z.div_div by (lia || discriminate). now rewrite Z.mul_comm. }
  rewrite EY. clearbody Y l.
  assert (E2 : X * B / (W * P) = Y / A).
  { assert (HY : X / P = Y) by (subst X; rewrite Z.mul_comm, Z.div_add_l, (Z.div_small l) by lia; lia).
    rewrite <- AB. replace (B * A * P) with ((A * P) * B) by ring. rewrite Z.div_mul_cancel_r by lia. rewrite (Z.mul_comm A), <- Z.div_div, HY by lia. reflexivity. }
  rewrite E2. clear E2 EY E Bl l.
  (* Y / A mod (A*B): *)
  assert (E3 : Y mod W / A = Y / A mod B).
  { rewrite <- AB, (Z.mul_comm B A). rewrite Z.rem_mul_r by lia. rewrite (Z.mul_comm A), Z.div_add by lia. rewrite (Z.div_small (Y mod A)) by (apply Z.mod_pos_bound; lia). lia. }
  rewrite E3. assert (E4 : (Y / W mod W) mod A = Y / W mod A).
  { rewrite <- AB at 2. rewrite (Z.mul_comm B A), Z.rem_mul_r by lia. rewrite (Z.mul_comm A), Z.mod_add by lia. apply Z.mod_mod. lia. }
  rewrite E4. rewrite <- AB at 1. rewrite Z.rem_mul_r by lia. rewrite Z.div_div by lia. rewrite (Z.mul_comm A B), AB. ring.
Qed.
Lemma words_ext_Forall : forall r X, (forall k, (k < length r)%nat -> nth k r 0 = X / W ^ Z.of_nat k mod W) -> Forall word r.
Proof. intros r X H. apply Forall_nth. intros i d Hi. rewrite (nth_indep r d 0), H by auto. apply Z.mod_pos_bound. reflexivity. Qed.

(** value of X*2^amount *)
Lemma pow2_words : forall a, 0 <= a -> 2 ^ a = W ^ (a / 64) * 2 ^ (a mod 64).
Proof.
  intros. pose proof (Z.div_pos a 64 H ltac:(lia)). pose proof (Z.mod_pos_bound a 64 ltac:(lia)).
  rewrite <- W_pow, <- Z.pow_mul_r, <- Z.pow_add_r by lia. f_equal. apply Z.div_mod. lia.
Qed.
Lemma Wpow_mod_zero : forall X (m k : nat), (k < m)%nat -> W ^ Z.of_nat m * X / W ^ Z.of_nat k mod W = 0.
Proof.
  intros X m k H. replace (Z.of_nat m) with (Z.of_nat k + (1 + Z.of_nat (m - k - 1))) by lia. rewrite !Z.pow_add_r, Z.pow_1_r by lia.
  pose proof (Wpow_pos k). replace (W ^ Z.of_nat k * (W * W ^ Z.of_nat (m - k - 1)) * X) with (X * W ^ Z.of_nat (m - k - 1) * W * W ^ Z.of_nat k) by ring.
  rewrite Z.div_mul by lia. apply Z.mod_mul. discriminate.
Qed.
Lemma Wpow_div_shift : forall X (m k : nat), W ^ Z.of_nat m * X / W ^ Z.of_nat (m + k) = X / W ^ Z.of_nat k.
Proof.
  intros. rewrite Nat2Z.inj_add, Z.pow_add_r by lia. apply Z.div_mul_cancel_l; pose proof (Wpow_pos m); pose proof (Wpow_pos k); lia.
Qed.
Lemma lshift_ok : forall n xs amount, Forall word xs -> xs <> [] -> 0 <= amount -> amount / 64 < Z.of_nat n ->
  exists r, lshift (repeat 0 n) xs amount = Ok r /\ length r = n /\ Forall word r /\ value r = (value xs * 2 ^ amount) mod W ^ Z.of_nat n.
Proof.
  intros n xs amount F N Ha Hn. unfold lshift. set (m := Z.to_nat (amount / 64)). set (b := amount mod 64).
  assert (Hb : 0 <= b < 64) by (apply Z.mod_pos_bound; lia). assert (Am : 0 <= amount / 64) by (apply Z.div_pos; lia).
  assert (Em : amount / 64 = Z.of_nat m) by (unfold m; lia).
  assert (Ln : (0 < length xs)%nat) by (destruct xs; [contradiction|cbn; lia]).
  pose proof (value_bound xs F) as Bv.
  assert (EX : value xs * 2 ^ amount = W ^ Z.of_nat m * (value xs * 2 ^ b)) by (rewrite pow2_words, Em by lia; fold b; ring).
  assert (Fin : forall r, length r = n -> (forall k, (k < n)%nat -> nth k r 0 = if Nat.ltb k m then 0 else value xs * 2 ^ b / W ^ Z.of_nat (k - m) mod W) ->
     Forall word r /\ value r = (value xs * 2 ^ amount) mod W ^ Z.of_nat n).
  { intros r L H. assert (H2 : forall k, (k < length r)%nat -> nth k r 0 = value xs * 2 ^ amount / W ^ Z.of_nat k mod W).
    { intros k Hk. rewrite H by lia. rewrite EX. destruct (Nat.ltb_spec k m). { now rewrite Wpow_mod_zero. }
      replace k with (m + (k - m))%nat at 2 by lia. now rewrite Wpow_div_shift. }
    split. { eapply words_ext_Forall; eauto. } rewrite <- L. now apply value_ext. }
  destruct (Z.eqb_spec b 0) as [B0|B0].
  - destruct (clear_down_ok m (wr_down (length xs) (fun i => nth i xs 0) m (repeat 0 n))) as (r & E & L & K).
    { rewrite wr_down_length, repeat_length. lia. }
    exists r. rewrite wr_down_length, repeat_length in L. split; auto. split; auto. apply Fin; auto. intros k Hk. rewrite K. destruct (Nat.ltb_spec k m); auto.
    rewrite nth_wr_down, repeat_length. rewrite (proj2 (Nat.leb_le _ _)), (proj2 (Nat.ltb_lt k n)) by lia. cbn [andb]. rewrite andb_true_r.
    rewrite B0, Z.pow_0_r, Z.mul_1_r. rewrite <- nth_value by auto.
    destruct (Nat.ltb_spec (k - m) (length xs)); auto. rewrite nth_repeat. symmetry. apply nth_overflow. lia.
  - assert (S1 : exists br1, (if Nat.ltb (length xs + m) (length (repeat 0 n)) then do t <- rd xs (length xs - 1); wr (repeat 0 n) (length xs + m) (ushr t (64 - b)) else Ok (repeat 0 n)) = Ok br1
       /\ length br1 = n /\ forall k, (k < n)%nat -> nth k br1 0 = if Nat.eqb k (length xs + m) then nth (length xs - 1) xs 0 / 2 ^ (64 - b) else 0).
    { rewrite repeat_length. destruct (Nat.ltb_spec (length xs + m) n).
      - rewrite rd_ok by lia. cbn [bind]. rewrite wr_ok by (rewrite repeat_length; lia). eexists; split; [reflexivity|]. rewrite upd_length, repeat_length. split; auto.
        intros k Hk. rewrite nth_upd, nth_repeat by (rewrite repeat_length; lia). rewrite ushr_div by lia. reflexivity.
      - eexists; split; [reflexivity|]. rewrite repeat_length. split; auto. intros k Hk. rewrite nth_repeat. destruct (Nat.eqb_spec k (length xs + m)); auto; lia. }
    destruct S1 as (br1 & -> & L1 & K1). cbn [bind]. rewrite rd_ok by lia. cbn [bind].
    rewrite wr_ok by (rewrite wr_down_length; lia). cbn [bind].
    match goal with |- exists r, clear_down m ?b2 = _ /\ _ => destruct (clear_down_ok m b2) as (r & E & L & K) end.
    { rewrite upd_length, wr_down_length. lia. }
    exists r. rewrite upd_length, wr_down_length, L1 in L. split; auto. split; auto. apply Fin; auto. intros k Hk. rewrite K. destruct (Nat.ltb_spec k m); auto.
    rewrite nth_upd by (rewrite wr_down_length; lia). destruct (Nat.eqb_spec k m) as [->|Nk].
    + rewrite Nat.sub_diag. cbn [Z.of_nat]. rewrite Z.pow_0_r, Z.div_1_r. rewrite (nth_value xs 0) by auto. cbn [Z.of_nat]. rewrite Z.pow_0_r, Z.div_1_r.
      unfold ushl, uwrap. rewrite Z.shiftl_mul_pow2 by lia. rewrite Z.mul_mod_idemp_l by discriminate. reflexivity.
    + rewrite nth_wr_down, L1. rewrite (proj2 (Nat.leb_le _ _)), (proj2 (Nat.ltb_lt k n)) by lia. cbn [andb]. rewrite andb_true_r.
      replace (k - m)%nat with (S (k - S m)) by lia. set (q := (k - S m)%nat). rewrite shift_word by lia. rewrite <- !nth_value by auto.
      destruct (Nat.ltb_spec q (length xs - 1)).
      * rewrite lor_shift; auto; try lia. now apply word_nth.
      * rewrite K1 by lia. rewrite (nth_overflow xs 0 (n := S q)) by lia. rewrite Z.mod_0_l, Z.mul_0_l, Z.add_0_l by (apply Z.pow_nonzero; lia).
        destruct (Nat.eqb_spec k (length xs + m)).
        -- replace q with (length xs - 1)%nat by lia. reflexivity.
        -- rewrite (nth_overflow xs 0 (n := q)) by lia. rewrite Z.div_0_l; auto. apply Z.pow_nonzero; lia.
Qed.

(** right shift *)
Lemma shr_word : forall X n (k : nat), 0 <= n < 64 -> 0 <= X ->
  X / 2 ^ n / W ^ Z.of_nat k mod W = (X / W ^ Z.of_nat (S k) mod W) mod 2 ^ n * 2 ^ (64 - n) + (X / W ^ Z.of_nat k mod W) / 2 ^ n.
Proof.
  intros X n k Hn HX. set (P := W ^ Z.of_nat k). assert (HP : 0 < P) by apply Wpow_pos.
  set (A := 2 ^ (64 - n)). set (B := 2 ^ n). assert (HA : 0 < A) by (apply Z.pow_pos_nonneg; lia). assert (HB : 0 < B) by (apply Z.pow_pos_nonneg; lia).
  assert (AB : B * A = W) by (apply pow2_split; lia). rewrite Wpow_S. fold P.
  rewrite Z.div_div, (Z.mul_comm B), <- Z.div_div by lia. assert (EY : X / (W * P) = X / P / W) by (rewrite Z.div_div by (lia || discriminate); now rewrite Z.mul_comm).
  rewrite EY. set (Y := X / P). clearbody Y.
  assert (E3 : Y mod W / B = Y / B mod A).
  { rewrite <- AB. rewrite Z.rem_mul_r by lia. rewrite (Z.mul_comm B), Z.div_add by lia. rewrite (Z.div_small (Y mod B)) by (apply Z.mod_pos_bound; lia). lia. }
  rewrite E3. assert (E4 : (Y / W mod W) mod B = Y / W mod B).
  { rewrite <- AB at 2. rewrite Z.rem_mul_r by lia. rewrite (Z.mul_comm B), Z.mod_add by lia. apply Z.mod_mod. lia. }
  rewrite E4. rewrite <- AB at 1. rewrite (Z.mul_comm B A), Z.rem_mul_r by lia. rewrite Z.div_div by lia. rewrite AB. ring.
Qed.
Lemma lor_shiftr : forall a b n, 0 < n < 64 -> word b ->
  Z.lor (ushl a (64 - n)) (ushr b n) = (a mod 2 ^ n) * 2 ^ (64 - n) + b / 2 ^ n.
Proof.
  intros a b n Hn Hb. pose proof (lor_shift a b (64 - n) ltac:(lia) Hb) as E. replace (64 - (64 - n)) with n in E by lia. exact E.
Qed.
Lemma rshift_loop_ok : forall n alias br xs (m i : nat) b, 0 <= b < 64 ->
  (alias = true -> m = O) -> (i + n = length xs)%nat -> (m <= i)%nat -> (length xs - m <= length br)%nat ->
  Forall word xs ->
  (alias = true -> forall k, (i <= k)%nat -> nth k br 0 = nth k xs 0) -> (alias = true -> length br = length xs) ->
  (forall k, (k < i - m)%nat -> nth k br 0 = value xs / 2 ^ b / W ^ Z.of_nat (k + m) mod W) ->
  exists r, rshift_loop n alias br xs m i b = Ok r /\ length r = length br /\
   forall k, (k < length xs - m)%nat -> nth k r 0 = value xs / 2 ^ b / W ^ Z.of_nat (k + m) mod W.
Proof.
  induction n; intros alias br xs m i b Hb Hal Hi Hm Hl F Ha Hlen Inv; cbn [rshift_loop].
  { exists br. repeat split; auto. intros k Hk. apply Inv. lia. }
  pose proof (value_bound xs F) as Bv.
  set (src := if alias then br else xs).
  assert (Hsrc : forall k, (i <= k)%nat -> (k < length xs)%nat -> rd src k = Ok (nth k xs 0)).
  { intros k H1 H2. unfold src. destruct alias; [rewrite rd_ok by (rewrite Hlen by auto; lia); now rewrite Ha|]. now apply rd_ok. }
  rewrite Hsrc by lia. cbn [bind].
  assert (Ev : (if b =? 0 then Ok (nth i xs 0) else if Nat.eqb n 0 then Ok (ushr (nth i xs 0) b) else do x1 <- rd src (S i); Ok (Z.lor (ushl x1 (64 - b)) (ushr (nth i xs 0) b)))
     = Ok (value xs / 2 ^ b / W ^ Z.of_nat i mod W)).
  { destruct (Z.eqb_spec b 0) as [->|]. { rewrite Z.pow_0_r, Z.div_1_r. f_equal. now apply nth_value. }
    rewrite shr_word by lia. rewrite <- !nth_value by auto. destruct (Nat.eqb_spec n 0).
    - rewrite (nth_overflow xs 0 (n := S i)) by lia. rewrite Z.mod_0_l, Z.mul_0_l, Z.add_0_l by (apply Z.pow_nonzero; lia). f_equal. apply ushr_div. lia.
    - rewrite Hsrc by lia. cbn [bind]. f_equal. apply lor_shiftr; [lia|]. now apply word_nth. }
  rewrite Ev. cbn [bind]. rewrite wr_ok by lia. cbn [bind].
  destruct (IHn alias (upd br (i - m) (value xs / 2 ^ b / W ^ Z.of_nat i mod W)) xs m (S i) b) as (r & E & L & K); rewrite ?upd_length in *; auto; try lia.
  - intros A k Hk. rewrite nth_upd by lia. destruct (Nat.eqb_spec k (i - m)); [lia|]. apply Ha; auto. lia.
  - intros k Hk. rewrite nth_upd by lia. destruct (Nat.eqb_spec k (i - m)).
    + subst. replace (i - m + m)%nat with i by lia. reflexivity.
    + apply Inv. lia.
  - exists r. auto.
Qed.
Lemma rshift_ok : forall alias br xs amount, Forall word xs -> 0 <= amount -> amount / 64 < Z.of_nat (length xs) ->
  (alias = true -> br = xs /\ amount < 64) -> Z.of_nat (length xs) - amount / 64 <= Z.of_nat (length br) ->
  exists r, rshift alias br xs amount = Ok r /\ Forall word r /\ value r = value xs / 2 ^ amount /\ Z.of_nat (length r) = Z.of_nat (length xs) - amount / 64.
Proof.
  intros alias br xs amount F Ha Hx Hal Hl. unfold rshift. set (m := Z.to_nat (amount / 64)). set (b := amount mod 64).
  assert (Hb : 0 <= b < 64) by (apply Z.mod_pos_bound; lia). assert (Am : 0 <= amount / 64) by (apply Z.div_pos; lia).
  assert (Em : amount / 64 = Z.of_nat m) by (unfold m; lia). pose proof (value_bound xs F) as Bv.
  rewrite (proj2 (Nat.leb_gt _ _)) by lia.
  destruct (rshift_loop_ok (length xs - m) alias br xs m m b Hb) as (r & E & L & K); auto; try lia.
  { intros A. destruct (Hal A). unfold m. rewrite Z.div_small by lia. reflexivity. }
  { intros A k Hk. destruct (Hal A). congruence. } { intros A. destruct (Hal A). congruence. }
  rewrite E. cbn [bind]. eexists; split; [reflexivity|].
  assert (Lf : length (firstn (length xs - m) r) = (length xs - m)%nat) by (rewrite firstn_length; lia).
  assert (K2 : forall k, (k < length (firstn (length xs - m) r))%nat -> nth k (firstn (length xs - m) r) 0 = value xs / 2 ^ amount / W ^ Z.of_nat k mod W).
  { intros k Hk. rewrite Lf in Hk. assert (En : nth k (firstn (length xs - m) r) 0 = nth k r 0).
    { rewrite <- (firstn_skipn (length xs - m) r) at 2. rewrite app_nth1 by lia. reflexivity. }
    rewrite En, K by auto. f_equal. rewrite (pow2_words amount), Em by lia. fold b. rewrite Nat2Z.inj_add, Z.pow_add_r by lia.
    pose proof (Wpow_pos k). pose proof (Wpow_pos m). assert (0 < 2 ^ b) by (apply Z.pow_pos_nonneg; lia).
    rewrite !Z.div_div; try lia; try nia. f_equal. ring. }
  split. { eapply words_ext_Forall; eauto. } split; [|rewrite Lf; lia].
  rewrite (value_ext _ _ K2), Lf. apply Z.mod_small. assert (0 < 2 ^ amount) by (apply Z.pow_pos_nonneg; lia).
  split; [apply Z.div_pos; lia|]. apply Z.div_lt_upper_bound; auto. rewrite (pow2_words amount), Em by lia. fold b.
  assert (0 < 2 ^ b) by (apply Z.pow_pos_nonneg; lia). pose proof (Wpow_pos m). pose proof (Wpow_pos (length xs - m)).
  assert (Es : W ^ Z.of_nat (length xs) = W ^ Z.of_nat m * W ^ Z.of_nat (length xs - m)) by (rewrite <- Z.pow_add_r by lia; f_equal; lia).
  rewrite Es in Bv. set (P := W ^ Z.of_nat m) in *. set (Q := W ^ Z.of_nat (length xs - m)) in *. clearbody P Q.
  replace (P * 2 ^ b * Q) with (2 ^ b * (P * Q)) by ring. apply Z.lt_le_trans with (1 * (P * Q)); [lia|]. apply Z.mul_le_mono_nonneg_r; lia.
Qed.
