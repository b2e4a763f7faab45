(** Bitwise operations. *)
From Coq Require Import List Bool ZArith Lia.
From Verif Require Import Outcome BignumModel IntSpec IntModel BignumProofs BignumProofs2 BignumProofs6 IntProofs IntProofs2 IntProofs4.
Import ListNotations.
Local Open Scope Z_scope.
Ltac Zify.zify_post_hook ::= idtac.

Definition wi (i : Z) : nat := Z.to_nat (i / 64).
Lemma wi_spec : forall i, 0 <= i -> i = 64 * Z.of_nat (wi i) + i mod 64 /\ 0 <= i mod 64 < 64.
Proof. intros i H. unfold wi. rewrite Z2Nat.id by (apply Z.div_pos; lia). split; [apply Z.div_mod; lia|apply Z.mod_pos_bound; lia]. Qed.
Lemma wi_lt : forall i k, 0 <= i -> ((wi i < k)%nat <-> i < 64 * Z.of_nat k).
Proof. intros i k H. destruct (wi_spec i H). lia. Qed.
Lemma tb_words : forall ws i, Forall word ws -> 0 <= i -> Z.testbit (value ws) i = Z.testbit (nth (wi i) ws 0) (i mod 64).
Proof.
  intros ws i F H. rewrite nth_value by auto. destruct (wi_spec i H) as [E B]. rewrite <- W_pow. rewrite Z.mod_pow2_bits_low by lia. rewrite W_pow, pow_W by lia. rewrite Z.div_pow2_bits by lia. f_equal. lia.
Qed.
Lemma tb_words_ext : forall ws X n, Forall word ws -> length ws = n -> 0 <= X < W ^ Z.of_nat n -> (forall i, 0 <= i < 64 * Z.of_nat n -> Z.testbit (nth (wi i) ws 0) (i mod 64) = Z.testbit X i) -> value ws = X.
Proof.
  intros ws X n F L B H. apply Z.bits_inj'. intros i Hi. rewrite pow_W in B by lia. pose proof (value_bound _ F) as V. rewrite L, pow_W in V by lia.
  destruct (Z.ltb_spec i (64 * Z.of_nat n)). { rewrite tb_words by auto. apply H. lia. }
  rewrite <- (Z.mod_small (value ws) (2 ^ (64 * Z.of_nat n))), <- (Z.mod_small X (2 ^ (64 * Z.of_nat n))) by lia. now rewrite !Z.mod_pow2_bits_high by lia.
Qed.
Definition bit_of (ws : list Z) (i : Z) : bool := Z.testbit (value ws) i.
Lemma bit_of_high : forall ws i, Forall word ws -> 64 * Z.of_nat (length ws) <= i -> bit_of ws i = false.
Proof. intros ws i F H. unfold bit_of. rewrite tb_words by (auto; lia). rewrite nth_overflow; [apply Z.bits_0|]. destruct (wi_spec i ltac:(lia)). lia. Qed.
(** the bits of a bitwise combination of word vectors *)
Section BitOp.
Variable op : Z -> Z -> Z.
Variable opb : bool -> bool -> bool.
Hypothesis op_spec : forall a b i, 0 <= i -> Z.testbit (op a b) i = opb (Z.testbit a i) (Z.testbit b i).
Hypothesis op_word : forall a b, word a -> word b -> word (op a b).
Lemma bitop_words : forall zs xs ys c xn yn, Forall word xs -> Forall word ys -> Forall word (bignum_bitop op zs xs ys c xn yn).
Proof.
  intros zs xs ys c xn yn Fx Fy. unfold bignum_bitop. apply Forall_app. split; [|apply Forall_repeat0]. apply Forall_app.
  assert (Ff : forall ws n, Forall word ws -> Forall word (firstn n ws)) by (intros ws n F; rewrite Forall_forall in *; intros w Hw; apply F; rewrite <- (firstn_skipn n ws); apply in_or_app; auto).
  assert (Fs : forall ws n, Forall word ws -> Forall word (skipn n ws)) by (intros ws n F; rewrite Forall_forall in *; intros w Hw; apply F; rewrite <- (firstn_skipn n ws); apply in_or_app; auto).
  split.
  - apply Forall_map. apply Forall_forall. intros [a b] Hin. cbn [fst snd]. pose proof (in_combine_l _ _ _ _ Hin) as H1. pose proof (in_combine_r _ _ _ _ Hin) as H2. pose proof (Ff xs c Fx) as G1. pose proof (Ff ys c Fy) as G2. rewrite Forall_forall in G1, G2. apply op_word; auto.
  - destruct (Nat.ltb c xn); [auto|]. destruct (Nat.ltb c yn); auto.
Qed.
Lemma bitop_nth : forall zs xs ys c xn yn k, (c <= length xs)%nat -> (c <= length ys)%nat -> (xn = 0%nat \/ xn = length xs) -> (yn = 0%nat \/ yn = length ys) ->
  nth k (bignum_bitop op zs xs ys c xn yn) 0 = if Nat.ltb k c then op (nth k xs 0) (nth k ys 0) else if Nat.ltb c xn then nth k xs 0 else if Nat.ltb c yn then nth k ys 0 else 0.
Proof.
  intros zs xs ys c xn yn k Cx Cy Hx Hy. unfold bignum_bitop.
  set (low := map (fun p : Z * Z => op (fst p) (snd p)) (combine (firstn c xs) (firstn c ys))).
  assert (Ll : length low = c). { unfold low. rewrite map_length, combine_length, !firstn_length. lia. }
  assert (Nl : forall j, (j < c)%nat -> nth j low 0 = op (nth j xs 0) (nth j ys 0)).
  { intros j Hj. unfold low. rewrite nth_indep with (d' := (fun p : Z * Z => op (fst p) (snd p)) (0, 0)) by (rewrite map_length, combine_length, !firstn_length; lia).
    rewrite map_nth with (f := fun p : Z * Z => op (fst p) (snd p)). rewrite combine_nth by (rewrite !firstn_length; lia). cbn [fst snd].
    assert (Nf : forall ws, nth j (firstn c ws) 0 = nth j ws 0). { intros ws. rewrite <- (firstn_skipn c ws) at 2. destruct (Nat.ltb_spec j (length (firstn c ws))); [now rewrite app_nth1 by auto|]. rewrite firstn_length in *. rewrite !nth_overflow; auto. rewrite firstn_skipn. lia. rewrite firstn_length; lia. }
    now rewrite !Nf. }
  assert (Ns : forall ws j, (c <= length ws)%nat -> nth j (firstn (length ws - c) (skipn c ws)) 0 = nth (c + j) ws 0).
  { intros ws j Hc. rewrite firstn_all2 by (rewrite skipn_length; lia). rewrite <- (firstn_skipn c ws) at 2. rewrite app_nth2 by (rewrite firstn_length; lia). f_equal. rewrite firstn_length. lia. }
  set (hi := if Nat.ltb c xn then firstn (xn - c) (skipn c xs) else if Nat.ltb c yn then firstn (yn - c) (skipn c ys) else []).
  assert (Pad : forall (a : list Z) n, nth k (a ++ repeat 0 n) 0 = nth k a 0). { intros a n. destruct (Nat.ltb_spec k (length a)); [now apply app_nth1|]. rewrite app_nth2 by auto. rewrite nth_repeat. now rewrite nth_overflow. }
  rewrite Pad. destruct (Nat.ltb_spec k c). { rewrite app_nth1 by lia. auto. } rewrite app_nth2 by lia. rewrite Ll. unfold hi.
  destruct (Nat.ltb_spec c xn). { destruct Hx as [Hx|Hx]; [lia|]. rewrite Hx, Ns by lia. f_equal. lia. }
  destruct (Nat.ltb_spec c yn). { destruct Hy as [Hy|Hy]; [lia|]. rewrite Hy, Ns by lia. f_equal. lia. } destruct (k - c)%nat; reflexivity.
Qed.
Lemma bitop_length : forall zs xs ys c xn yn, (c <= length xs)%nat -> (c <= length ys)%nat -> (xn = 0%nat \/ xn = length xs) -> (yn = 0%nat \/ yn = length ys) ->
  zs = (if Nat.ltb c xn then xn else if Nat.ltb c yn then yn else c) -> length (bignum_bitop op zs xs ys c xn yn) = zs.
Proof.
  intros zs xs ys c xn yn Cx Cy Hx Hy ->. unfold bignum_bitop. rewrite !app_length, repeat_length, map_length, combine_length, !firstn_length.
  destruct (Nat.ltb_spec c xn); [rewrite firstn_length, skipn_length; lia|]. destruct (Nat.ltb_spec c yn); [rewrite firstn_length, skipn_length; lia|]. cbn [length]. lia.
Qed.
Lemma bitop_bit : forall zs xs ys c xn yn i, Forall word xs -> Forall word ys -> (c <= length xs)%nat -> (c <= length ys)%nat -> (xn = 0%nat \/ xn = length xs) -> (yn = 0%nat \/ yn = length ys) -> 0 <= i ->
  bit_of (bignum_bitop op zs xs ys c xn yn) i = if i <? 64 * Z.of_nat c then opb (bit_of xs i) (bit_of ys i) else if Nat.ltb c xn then bit_of xs i else if Nat.ltb c yn then bit_of ys i else false.
Proof.
  intros zs xs ys c xn yn i Fx Fy Cx Cy Hx Hy Hi. unfold bit_of. rewrite !tb_words by (auto using bitop_words). rewrite bitop_nth by auto.
  destruct (wi_spec i Hi) as [E B]. destruct (Z.ltb_spec i (64 * Z.of_nat c)) as [L|L].
  - rewrite (proj2 (Nat.ltb_lt _ _)) by lia. apply op_spec. lia.
  - rewrite (proj2 (Nat.ltb_ge _ _)) by lia. destruct (Nat.ltb c xn); auto. destruct (Nat.ltb c yn); auto. apply Z.bits_0.
Qed.
End BitOp.

Lemma land_spec' : forall a b i, 0 <= i -> Z.testbit (Z.land a b) i = Z.testbit a i && Z.testbit b i. Proof. intros. apply Z.land_spec. Qed.
Lemma lor_spec' : forall a b i, 0 <= i -> Z.testbit (Z.lor a b) i = Z.testbit a i || Z.testbit b i. Proof. intros. apply Z.lor_spec. Qed.
(** x lies in [-2^m, 2^m) when all bits from m up agree *)
Lemma range_shiftr : forall x m, 0 <= m -> (- 2 ^ m <= x < 2 ^ m <-> Z.shiftr x m = 0 \/ Z.shiftr x m = -1).
Proof.
  intros x m Hm. rewrite Z.shiftr_div_pow2 by auto. assert (P2 : 0 < 2 ^ m) by (apply Z.pow_pos_nonneg; lia). pose proof (Z.div_mod x (2 ^ m) ltac:(lia)) as E. pose proof (Z.mod_pos_bound x (2 ^ m) P2) as B. split.
  - intros H. destruct (Z.ltb_spec x 0); [right; apply div_small_neg; lia|left; apply Z.div_small; lia].
  - intros [H|H]; rewrite H in E; lia.
Qed.
Lemma range_land : forall x y m, 0 <= m -> - 2 ^ m <= x < 2 ^ m -> - 2 ^ m <= y < 2 ^ m -> - 2 ^ m <= Z.land x y < 2 ^ m.
Proof. intros x y m Hm Hx Hy. apply range_shiftr in Hx; auto. apply range_shiftr in Hy; auto. apply range_shiftr; auto. rewrite Z.shiftr_land. destruct Hx as [-> | ->], Hy as [-> | ->]; auto. Qed.
Lemma range_lor : forall x y m, 0 <= m -> - 2 ^ m <= x < 2 ^ m -> - 2 ^ m <= y < 2 ^ m -> - 2 ^ m <= Z.lor x y < 2 ^ m.
Proof. intros x y m Hm Hx Hy. apply range_shiftr in Hx; auto. apply range_shiftr in Hy; auto. apply range_shiftr; auto. rewrite Z.shiftr_lor. destruct Hx as [-> | ->], Hy as [-> | ->]; auto. Qed.
Lemma range_lxor : forall x y m, 0 <= m -> - 2 ^ m <= x < 2 ^ m -> - 2 ^ m <= y < 2 ^ m -> - 2 ^ m <= Z.lxor x y < 2 ^ m.
Proof. intros x y m Hm Hx Hy. apply range_shiftr in Hx; auto. apply range_shiftr in Hy; auto. apply range_shiftr; auto. rewrite Z.shiftr_lxor. destruct Hx as [-> | ->], Hy as [-> | ->]; auto. Qed.
Lemma land_word : forall a b, word a -> word b -> word (Z.land a b).
Proof. unfold word. intros a b Ha Hb. rewrite <- W_pow in *. pose proof (range_land a b 64 ltac:(lia) ltac:(lia) ltac:(lia)). assert (0 <= Z.land a b) by (apply Z.land_nonneg; lia). lia. Qed.
Lemma lor_word : forall a b, word a -> word b -> word (Z.lor a b).
Proof. unfold word. intros a b Ha Hb. rewrite <- W_pow in *. pose proof (range_lor a b 64 ltac:(lia) ltac:(lia) ltac:(lia)). assert (0 <= Z.lor a b) by (apply Z.lor_nonneg; lia). lia. Qed.
Lemma bits_high_range : forall x m i, 0 <= m <= i -> - 2 ^ m <= x < 2 ^ m -> Z.testbit x i = (x <? 0).
Proof.
  intros x m i Hm Hx. replace i with (i - m + m) by lia. rewrite <- Z.shiftr_spec by lia. pose proof Hx as Hx'. apply range_shiftr in Hx; [|lia]. rewrite Z.shiftr_div_pow2 in * by lia. assert (P2 : 0 < 2 ^ m) by (apply Z.pow_pos_nonneg; lia).
  destruct (Z.ltb_spec x 0). { rewrite div_small_neg by lia. apply Z.bits_m1. lia. } { rewrite Z.div_small by lia. apply Z.bits_0. }
Qed.

(** bits of the operands *)
Lemma big_bits_pos : forall b i, wfb b -> sign b = 1 -> 0 <= i -> Z.testbit (bval b) i = bit_of (words b) i.
Proof. intros b i Wb S Hi. unfold bval, bit_of. rewrite S, Z.mul_1_l. reflexivity. Qed.
Lemma big_range : forall b, wfb b -> - 2 ^ (64 * nw b) <= bval b < 2 ^ (64 * nw b).
Proof. intros b (S & F & N). unfold nw, bval. pose proof (value_bound _ F) as B. rewrite pow_W in B by lia. destruct S as [-> | ->]; lia. Qed.
Lemma big_bits_neg : forall b i, wfb b -> sign b = -1 -> 0 < value (words b) -> 0 <= i -> Z.testbit (bval b) i = if i <? 64 * nw b then bit_of (twoscmpl (words b)) i else true.
Proof.
  intros b i Wb S P Hi. pose proof (big_range b Wb) as R. destruct Wb as (_ & F & N). destruct (twoscmpl_ok _ F) as (_ & _ & V). unfold bit_of. rewrite V, pow_W by lia.
  destruct (Z.ltb_spec i (64 * nw b)).
  - rewrite Z.mod_pow2_bits_low by (unfold nw in *; lia). unfold bval. rewrite S. reflexivity.
  - rewrite (bits_high_range _ (64 * nw b)); auto; [|unfold nw in *; lia]. apply Z.ltb_lt. unfold bval. rewrite S. lia.
Qed.
Lemma twos_nonzero : forall ws, Forall word ws -> 0 < value ws -> value (twoscmpl ws) <> 0.
Proof. intros ws F P. destruct (twoscmpl_ok _ F) as (_ & _ & V). pose proof (value_bound _ F) as B. rewrite V, Z.mod_opp_l_nz; rewrite ?Z.mod_small by lia; lia. Qed.
(** the result built by complementing back *)
Lemma neg_result : forall zs X, Forall word zs -> zs <> [] -> value zs <> 0 -> X < 0 -> - 2 ^ (64 * Z.of_nat (length zs)) <= X ->
  (forall i, 0 <= i < 64 * Z.of_nat (length zs) -> bit_of zs i = Z.testbit X i) -> returns (Ok (normalize (Big (-1) (twoscmpl zs)))) X.
Proof.
  intros zs X F N Z0 Xn Xr H. destruct (twoscmpl_ok _ F) as (Ft & Lt & Vt). apply ret_norm. { split; [|split]; cbn [sign words]; auto. destruct (twoscmpl zs), zs; cbn [length] in Lt; try discriminate; contradiction. }
  unfold bval. cbn [sign words]. rewrite Vt. pose proof (value_bound _ F) as B. rewrite Z.mod_opp_l_nz; rewrite ?Z.mod_small by lia; try lia. rewrite pow_W in * by lia. set (m := 64 * Z.of_nat (length zs)) in *. assert (P2 : 0 < 2 ^ m) by lia.
  assert (E : value zs = X mod 2 ^ m). { apply Z.bits_inj'. intros i Hi. destruct (Z.ltb_spec i m). { rewrite Z.mod_pow2_bits_low by lia. apply H. lia. } rewrite Z.mod_pow2_bits_high by (unfold m in *; lia). rewrite <- (Z.mod_small (value zs) (2 ^ m)) by lia. apply Z.mod_pow2_bits_high. unfold m in *; lia. }
  rewrite E. pose proof (Z.div_mod X (2 ^ m) ltac:(lia)) as D. destruct (Z.eq_dec X (- 2 ^ m)) as [->|Ne]. { exfalso. apply Z0. rewrite E. rewrite Z.mod_opp_l_z; [auto|lia|apply Z.mod_same; lia]. }
  rewrite (div_small_neg X (2 ^ m)) in D by lia. lia.
Qed.
Lemma pos_result : forall zs X, Forall word zs -> zs <> [] -> 0 <= X -> (forall i, 0 <= i -> bit_of zs i = Z.testbit X i) -> returns (Ok (normalize (Big 1 zs))) X.
Proof. intros zs X F N Xp H. apply ret_norm. { split; [|split]; auto. } unfold bval. cbn [sign words]. rewrite Z.mul_1_l. apply Z.bits_inj'. intros i Hi. now apply H. Qed.
Lemma nonzero_bits : forall zs ys, Forall word zs -> value ys <> 0 -> (forall i, 0 <= i -> bit_of ys i = true -> bit_of zs i = true) -> value zs <> 0.
Proof.
  intros zs ys F N H E. apply N. apply Z.bits_inj'. intros i Hi. rewrite Z.bits_0. destruct (Z.testbit (value ys) i) eqn:T; auto. specialize (H i Hi T). unfold bit_of in H. rewrite E, Z.bits_0 in H. discriminate.
Qed.

Definition okb (b : bignum) : Prop := wfb b /\ (sign b = -1 -> 0 < value (words b)).
Lemma okb_neg : forall b, okb b -> sign b = -1 -> bval b < 0. Proof. intros b (Wb & P) S. unfold bval. specialize (P S). rewrite S. lia. Qed.
Lemma okb_pos : forall b, okb b -> sign b = 1 -> 0 <= bval b. Proof. intros b ((_ & F & _) & _) S. unfold bval. rewrite S. pose proof (value_bound _ F). lia. Qed.
Ltac okb_intro := match goal with H : okb ?b |- _ => let W := fresh "W" in let P := fresh "P" in let S := fresh "S" in let F := fresh "F" in let N := fresh "N" in destruct H as [W P]; pose proof W as (S & F & N) end.

Lemma len_nonnil : forall {A} (l : list A) n, length l = n -> (0 < n)%nat -> l <> []. Proof. intros A [|] n E H; cbn in *; [lia|discriminate]. Qed.
Lemma nonnil_len : forall {A} (l : list A), l <> [] -> (0 < length l)%nat. Proof. intros A [|]; cbn; [contradiction|lia]. Qed.
Ltac lt0 := repeat match goal with |- context [Nat.ltb ?a 0] => rewrite (proj2 (Nat.ltb_ge a 0)) by lia end.
Ltac blen := apply bitop_length; auto; repeat match goal with |- context [Nat.ltb ?a ?b] => destruct (Nat.ltb_spec a b) end; lia.
Lemma bignum_logand_ok : forall x y, okb x -> okb y -> (sign x = -1 -> sign y = -1 -> Z.land (bval x) (bval y) <> - 2 ^ (64 * Z.max (nw x) (nw y))) ->
  returns (Ok (bignum_logand x y)) (Z.land (bval x) (bval y)).
Proof.
  intros x y Hx Hy NE. pose proof Hx as (Wx & Px). pose proof Hy as (Wy & Py). pose proof Wx as (Sx & Fx & Nx). pose proof Wy as (Sy & Fy & Ny).
  destruct (twoscmpl_ok _ Fx) as (Ftx & Ltx & _). destruct (twoscmpl_ok _ Fy) as (Fty & Lty & _). pose proof (nonnil_len _ Nx) as Lx. pose proof (nonnil_len _ Ny) as Ly.
  unfold bignum_logand. destruct Sx as [Sx|Sx], Sy as [Sy|Sy]; rewrite Sx, Sy; change (0 <? 1) with true; change (0 <? -1) with false; cbn match.
  - apply pos_result.
    + apply bitop_words; auto using land_word.
    + apply len_nonnil with (n := Nat.min (length (words x)) (length (words y))); [|lia]. blen.
    + apply Z.land_nonneg. left. now apply okb_pos.
    + intros i Hi. rewrite bitop_bit with (opb := andb) by (auto using land_spec', land_word; lia). rewrite Z.land_spec, !big_bits_pos by auto. destruct (Z.ltb_spec i (64 * Z.of_nat (Nat.min (length (words x)) (length (words y))))) as [L|L]; auto.
      lt0. symmetry. apply andb_false_iff. destruct (Nat.leb_spec (length (words x)) (length (words y))); [left|right]; apply bit_of_high; auto; lia.
  - specialize (Py Sy). apply pos_result.
    + apply bitop_words; auto using land_word.
    + apply len_nonnil with (n := length (words x)); [|lia]. blen.
    + apply Z.land_nonneg. left. now apply okb_pos.
    + intros i Hi. rewrite bitop_bit with (opb := andb) by (auto using land_spec', land_word; lia). rewrite Z.land_spec, (big_bits_pos x), (big_bits_neg y) by auto. unfold nw. destruct (Z.ltb_spec i (64 * Z.of_nat (Nat.min (length (words x)) (length (words y))))) as [L|L].
      * rewrite (proj2 (Z.ltb_lt _ _)) by lia. reflexivity.
      * destruct (Nat.ltb_spec (Nat.min (length (words x)) (length (words y))) (length (words x))). { rewrite (proj2 (Z.ltb_ge _ _)) by lia. now rewrite andb_true_r. } lt0. rewrite (bit_of_high (words x)) by (auto; lia). reflexivity.
  - specialize (Px Sx). apply pos_result.
    + apply bitop_words; auto using land_word.
    + apply len_nonnil with (n := length (words y)); [|lia]. blen.
    + apply Z.land_nonneg. right. now apply okb_pos.
    + intros i Hi. rewrite bitop_bit with (opb := andb) by (auto using land_spec', land_word; lia). rewrite Z.land_spec, (big_bits_pos y), (big_bits_neg x) by auto. unfold nw. destruct (Z.ltb_spec i (64 * Z.of_nat (Nat.min (length (words x)) (length (words y))))) as [L|L].
      * rewrite (proj2 (Z.ltb_lt _ _)) by lia. reflexivity.
      * lt0. destruct (Nat.ltb_spec (Nat.min (length (words x)) (length (words y))) (length (words y))). { rewrite (proj2 (Z.ltb_ge _ _)) by lia. now rewrite andb_true_l. } rewrite (bit_of_high (words y)) by (auto; lia). now rewrite andb_false_r.
  - specialize (Px Sx). specialize (Py Sy). set (zs := bignum_bitop Z.land (Nat.max (length (words x)) (length (words y))) (twoscmpl (words x)) (twoscmpl (words y)) (Nat.min (length (words x)) (length (words y))) (length (words x)) (length (words y))).
    assert (Lz : length zs = Nat.max (length (words x)) (length (words y))). { blen. }
    assert (Fz : Forall word zs) by (apply bitop_words; auto using land_word).
    assert (Bz : forall i, 0 <= i < 64 * Z.of_nat (length zs) -> bit_of zs i = Z.testbit (Z.land (bval x) (bval y)) i).
    { intros i Hi. rewrite Lz in Hi. unfold zs. rewrite bitop_bit with (opb := andb) by (auto using land_spec', land_word; lia). rewrite Z.land_spec, (big_bits_neg x), (big_bits_neg y) by (auto; lia). unfold nw. destruct (Z.ltb_spec i (64 * Z.of_nat (Nat.min (length (words x)) (length (words y))))) as [L|L].
      * rewrite !(proj2 (Z.ltb_lt _ _)) by lia. reflexivity.
      * destruct (Nat.ltb_spec (Nat.min (length (words x)) (length (words y))) (length (words x))). { rewrite (proj2 (Z.ltb_lt i (64 * Z.of_nat (length (words x))))), (proj2 (Z.ltb_ge _ _)) by lia. now rewrite andb_true_r. } rewrite (proj2 (Nat.ltb_lt _ _)) by lia. rewrite (proj2 (Z.ltb_ge i (64 * Z.of_nat (length (words x))))), (proj2 (Z.ltb_lt _ _)) by lia. reflexivity. }
    assert (Rz : - 2 ^ (64 * Z.of_nat (length zs)) <= Z.land (bval x) (bval y) < 2 ^ (64 * Z.of_nat (length zs))).
    { assert (M : forall n, n <= Z.of_nat (length zs) -> 2 ^ (64 * n) <= 2 ^ (64 * Z.of_nat (length zs))) by (intros; apply Z.pow_le_mono_r; lia). pose proof (big_range x Wx). pose proof (big_range y Wy). pose proof (M (nw x) ltac:(unfold nw; lia)). pose proof (M (nw y) ltac:(unfold nw; lia)). apply range_land; lia. }
    assert (Nz : Z.land (bval x) (bval y) < 0) by (apply Z.land_neg; split; now apply okb_neg).
    apply neg_result; auto; [now apply len_nonnil with (n := length zs); [|lia]| |lia].
    intros E. specialize (NE Sx Sy). apply NE. replace (Z.max (nw x) (nw y)) with (Z.of_nat (length zs)) by (unfold nw; lia). set (m := 64 * Z.of_nat (length zs)) in *. assert (P2 : 0 < 2 ^ m) by lia.
    assert (Em : Z.land (bval x) (bval y) mod 2 ^ m = 0). { apply Z.bits_inj'. intros i Hi. rewrite Z.bits_0. destruct (Z.ltb_spec i m). { rewrite Z.mod_pow2_bits_low by lia. rewrite <- Bz by lia. unfold bit_of. rewrite E. apply Z.bits_0. } apply Z.mod_pow2_bits_high. unfold m in *; lia. }
    pose proof (Z.div_mod (Z.land (bval x) (bval y)) (2 ^ m) ltac:(lia)) as D. rewrite div_small_neg, Em in D by lia. lia.
Qed.

Lemma lor_ge : forall a b, 0 <= a \/ b < 0 -> b <= Z.lor a b.
Proof.
  intros a b H. replace (Z.lor a b) with (b + Z.ldiff a b). { assert (0 <= Z.ldiff a b) by (apply Z.ldiff_nonneg; lia). lia. }
  rewrite Z.add_nocarry_lxor. { apply Z.bits_inj'. intros i Hi. rewrite Z.lxor_spec, Z.ldiff_spec, Z.lor_spec. now destruct (Z.testbit a i), (Z.testbit b i). }
  apply Z.bits_inj'. intros i Hi. rewrite Z.land_spec, Z.ldiff_spec, Z.bits_0. now destruct (Z.testbit a i), (Z.testbit b i).
Qed.
Lemma bignum_logior_ok : forall x y, okb x -> okb y -> returns (Ok (bignum_logior x y)) (Z.lor (bval x) (bval y)).
Proof.
  intros x y Hx Hy. pose proof Hx as (Wx & Px). pose proof Hy as (Wy & Py). pose proof Wx as (Sx & Fx & Nx). pose proof Wy as (Sy & Fy & Ny).
  destruct (twoscmpl_ok _ Fx) as (Ftx & Ltx & _). destruct (twoscmpl_ok _ Fy) as (Fty & Lty & _). pose proof (nonnil_len _ Nx) as Lx. pose proof (nonnil_len _ Ny) as Ly.
  set (mn := Nat.min (length (words x)) (length (words y))).
  unfold bignum_logior. fold mn. destruct Sx as [Sx|Sx], Sy as [Sy|Sy]; rewrite Sx, Sy; change (0 <=? 1) with true; change (0 <=? -1) with false; cbn match.
  - apply pos_result.
    + apply bitop_words; auto using lor_word.
    + apply len_nonnil with (n := Nat.max (length (words x)) (length (words y))); [|lia]. blen.
    + apply Z.lor_nonneg. split; now apply okb_pos.
    + intros i Hi. rewrite bitop_bit with (opb := orb) by (auto using lor_spec', lor_word; unfold mn; lia). rewrite Z.lor_spec, !big_bits_pos by auto. destruct (Z.ltb_spec i (64 * Z.of_nat mn)) as [L|L]; auto.
      destruct (Nat.ltb_spec mn (length (words x))). { rewrite (bit_of_high (words y)) by (auto; unfold mn in *; lia). now rewrite orb_false_r. } rewrite (bit_of_high (words x)) by (auto; unfold mn in *; lia). destruct (Nat.ltb_spec mn (length (words y))); [reflexivity|]. rewrite (bit_of_high (words y)) by (auto; unfold mn in *; lia). reflexivity.
  - specialize (Py Sy). set (zs := bignum_bitop Z.lor (length (words y)) (words x) (twoscmpl (words y)) mn 0 (length (words y))).
    assert (Lz : length zs = length (words y)). { blen. }
    assert (Fz : Forall word zs) by (apply bitop_words; auto using lor_word).
    assert (Bt : forall i, 0 <= i < 64 * Z.of_nat (length zs) -> bit_of zs i = bit_of (words x) i || bit_of (twoscmpl (words y)) i).
    { intros i Hi. unfold zs. rewrite bitop_bit with (opb := orb) by (auto using lor_spec', lor_word; unfold mn; lia). destruct (Z.ltb_spec i (64 * Z.of_nat mn)); auto. lt0. rewrite (bit_of_high (words x)) by (auto; unfold mn in *; lia). cbn [orb]. destruct (Nat.ltb_spec mn (length (words y))); auto. lia. }
    assert (Nz : Z.lor (bval x) (bval y) < 0) by (apply Z.lor_neg; right; now apply okb_neg).
    apply neg_result; auto.
    + apply len_nonnil with (n := length zs); [auto|lia].
    + apply nonzero_bits with (twoscmpl (words y)); auto using twos_nonzero. intros i Hi T. destruct (Z.ltb_spec i (64 * Z.of_nat (length zs))). { rewrite Bt, T by lia. apply orb_true_r. } rewrite bit_of_high in T by (auto; lia). discriminate.
    + rewrite Lz. fold (nw y). apply Z.le_trans with (bval y); [apply big_range; auto|]. apply lor_ge. left. now apply okb_pos.
    + intros i Hi. rewrite Bt by auto. rewrite Z.lor_spec, (big_bits_pos x), (big_bits_neg y) by (auto; lia). unfold nw. rewrite (proj2 (Z.ltb_lt _ _)) by lia. reflexivity.
  - specialize (Px Sx). set (zs := bignum_bitop Z.lor (length (words x)) (twoscmpl (words x)) (words y) mn (length (words x)) 0).
    assert (Lz : length zs = length (words x)). { blen. }
    assert (Fz : Forall word zs) by (apply bitop_words; auto using lor_word).
    assert (Bt : forall i, 0 <= i < 64 * Z.of_nat (length zs) -> bit_of zs i = bit_of (twoscmpl (words x)) i || bit_of (words y) i).
    { intros i Hi. unfold zs. rewrite bitop_bit with (opb := orb) by (auto using lor_spec', lor_word; unfold mn; lia). destruct (Z.ltb_spec i (64 * Z.of_nat mn)); auto. rewrite (bit_of_high (words y)) by (auto; unfold mn in *; lia). rewrite orb_false_r. destruct (Nat.ltb_spec mn (length (words x))); auto. lia. }
    assert (Nz : Z.lor (bval x) (bval y) < 0) by (apply Z.lor_neg; left; now apply okb_neg).
    apply neg_result; auto.
    + apply len_nonnil with (n := length zs); [auto|lia].
    + apply nonzero_bits with (twoscmpl (words x)); auto using twos_nonzero. intros i Hi T. destruct (Z.ltb_spec i (64 * Z.of_nat (length zs))). { rewrite Bt, T by lia. reflexivity. } rewrite bit_of_high in T by (auto; lia). discriminate.
    + rewrite Lz. fold (nw x). apply Z.le_trans with (bval x); [apply big_range; auto|].
      rewrite Z.lor_comm. apply lor_ge. left. now apply okb_pos.
    + intros i Hi. rewrite Bt by auto. rewrite Z.lor_spec, (big_bits_neg x), (big_bits_pos y) by (auto; lia). unfold nw. rewrite (proj2 (Z.ltb_lt _ _)) by lia. reflexivity.
  - specialize (Px Sx). specialize (Py Sy). set (zs := bignum_bitop Z.lor mn (twoscmpl (words x)) (twoscmpl (words y)) mn 0 0).
    assert (Lz : length zs = mn). { blen. }
    assert (Fz : Forall word zs) by (apply bitop_words; auto using lor_word).
    assert (Bt : forall i, 0 <= i < 64 * Z.of_nat (length zs) -> bit_of zs i = bit_of (twoscmpl (words x)) i || bit_of (twoscmpl (words y)) i).
    { intros i Hi. unfold zs. rewrite bitop_bit with (opb := orb) by (auto using lor_spec', lor_word; unfold mn; lia). rewrite (proj2 (Z.ltb_lt _ _)) by lia. reflexivity. }
    assert (Nz : Z.lor (bval x) (bval y) < 0) by (apply Z.lor_neg; left; now apply okb_neg).
    assert (Bw : forall i, 0 <= i < 64 * Z.of_nat (length zs) -> bit_of zs i = Z.testbit (Z.lor (bval x) (bval y)) i).
    { intros i Hi. rewrite Bt by auto. rewrite Z.lor_spec, (big_bits_neg x), (big_bits_neg y) by (auto; lia). unfold nw. rewrite !(proj2 (Z.ltb_lt _ _)) by (unfold mn in *; lia). reflexivity. }
    assert (Lo : - 2 ^ (64 * Z.of_nat (length zs)) <= Z.lor (bval x) (bval y)).
    { assert (Mono : forall a b, b < 0 -> b <= Z.lor a b) by (intros; apply lor_ge; auto).
      pose proof (okb_neg x Hx Sx). pose proof (okb_neg y Hy Sy). rewrite Lz. unfold mn. destruct (Nat.leb_spec (length (words x)) (length (words y))).
      - rewrite Nat.min_l by auto. fold (nw x). rewrite Z.lor_comm. pose proof (Mono (bval y) (bval x)). pose proof (big_range x Wx). lia.
      - rewrite Nat.min_r by lia. fold (nw y). pose proof (Mono (bval x) (bval y)). pose proof (big_range y Wy). lia. }
    apply neg_result; auto.
    + apply len_nonnil with (n := length zs); [auto|unfold mn in *; lia].
    + intros E. unfold mn in Lz. destruct (Nat.leb_spec (length (words x)) (length (words y))).
      * revert E. apply nonzero_bits with (twoscmpl (words x)); auto using twos_nonzero. intros i Hi T. destruct (Z.ltb_spec i (64 * Z.of_nat (length zs))). { rewrite Bt, T by lia. reflexivity. } rewrite bit_of_high in T by (auto; lia). discriminate.
      * revert E. apply nonzero_bits with (twoscmpl (words y)); auto using twos_nonzero. intros i Hi T. destruct (Z.ltb_spec i (64 * Z.of_nat (length zs))). { rewrite Bt, T by lia. apply orb_true_r. } rewrite bit_of_high in T by (auto; lia). discriminate.
Qed.
