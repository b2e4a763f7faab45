(** The index of a sparse matrix entry: interleaving is a bijection. *)
From Coq Require Import ZArith List Bool Arith Lia Permutation.
From Verif Require Import Outcome BitsModel BitsSpec BitsProofs BitsProofs3 SparseModel HashSpec SparseSpec SparseVec SparseVecProofs SparseMat.
Import ListNotations.
Local Open Scope Z_scope.
Ltac Zify.zify_post_hook ::= idtac.

Lemma shl_ok : forall a n, 0 <= n < 64 -> shl a n = Ok (Z.shiftl a n mod 2 ^ 64).
Proof. intros a n H. unfold shl. destruct (Z.leb_spec 0 n), (Z.ltb_spec n 64); try lia. reflexivity. Qed.
Lemma bit_shl : forall a n i, 0 <= i -> Z.testbit (Z.shiftl a n mod 2 ^ 64) i = (i <? 64) && Z.testbit a (i - n).
Proof.
  intros a n i Hi. destruct (Z.ltb_spec i 64); cbn [andb].
  - rewrite Z.mod_pow2_bits_low by lia. now rewrite Z.shiftl_spec by lia.
  - now rewrite Z.mod_pow2_bits_high by lia.
Qed.
Lemma bit_mask : forall i, Z.testbit INTERLEAVE_MASK i = (0 <=? i) && (i <? 4).
Proof.
  intros i. unfold INTERLEAVE_MASK. destruct (Z.leb_spec 0 i); [|now rewrite Z.testbit_neg_r by lia]. change 15 with (Z.ones 4). rewrite Z.testbit_ones_nonneg by lia. reflexivity.
Qed.
(** where bit [n] of the index comes from *)
Definition ilv (x y n : Z) : bool := if n mod 8 <? 4 then Z.testbit x (4 * (n / 8) + n mod 8) else Z.testbit y (4 * (n / 8) + n mod 8 - 4).
Lemma combine_S : forall f ix iy bmax shift ind, combine_loop (S f) ix iy bmax shift ind =
    if shift <? bmax + 1 then
      do m <- shl INTERLEAVE_MASK shift;
      do p <- shl (Z.land ix m) shift;
      do q <- shl (Z.land iy m) (shift + INTERLEAVE_SHIFT);
      combine_loop f ix iy bmax (shift + INTERLEAVE_SHIFT) (Z.lor (Z.lor ind p) q)
    else Ok ind.
Proof. reflexivity. Qed.
Lemma split_S : forall f i x y shift, split_loop (S f) i x y shift =
    if i =? 0 then Ok (x, y)
    else
      do p <- shl (Z.land i INTERLEAVE_MASK) shift;
      let i1 := Z.shiftr i INTERLEAVE_SHIFT in
      do q <- shl (Z.land i1 INTERLEAVE_MASK) shift;
      split_loop f (Z.shiftr i1 INTERLEAVE_SHIFT) (Z.lor x p) (Z.lor y q) (shift + INTERLEAVE_SHIFT).
Proof. reflexivity. Qed.
Lemma combine_loop_ok : forall fuel j x y bmax ind, (8 <= j + fuel)%nat -> bmax < 32 -> (forall i, bmax < i -> Z.testbit x i = false /\ Z.testbit y i = false) ->
  (fuel <> 0)%nat -> (j <= 8)%nat ->
  (forall n, 0 <= n -> Z.testbit ind n = (n <? 8 * Z.of_nat j) && ilv x y n) ->
  exists r, combine_loop (S fuel) x y bmax (4 * Z.of_nat j) ind = Ok r /\ forall n, 0 <= n -> Z.testbit r n = (n <? 64) && ilv x y n.
Proof.
  induction fuel as [|fuel IH]; intros j x y bmax ind Hf Hb Hz Nf Hj Hi; [lia|]. rewrite combine_S. destruct (Z.ltb_spec (4 * Z.of_nat j) (bmax + 1)) as [Hs|Hs].
  - unfold INTERLEAVE_SHIFT. do 3 (rewrite shl_ok by lia; cbn [bind]). replace (4 * Z.of_nat j + 4) with (4 * Z.of_nat (S j)) by lia.
    match goal with |- exists r, combine_loop (S fuel) x y bmax _ ?t = _ /\ _ => set (ind1 := t) end.
    assert (Hn : forall n, 0 <= n -> Z.testbit ind1 n = (n <? 8 * Z.of_nat (S j)) && ilv x y n).
    { intros n Hn. unfold ind1. rewrite !Z.lor_spec, !bit_shl, !Z.land_spec by lia. set (s := 4 * Z.of_nat j). replace (4 * Z.of_nat (S j)) with (s + 4) by (unfold s; lia).
      assert (Mk : forall i, Z.testbit (Z.shiftl INTERLEAVE_MASK s mod 2 ^ 64) i = (0 <=? i) && (i <? 64) && ((s <=? i) && (i <? s + 4))).
      { intros i. destruct (Z.leb_spec 0 i); [|now rewrite Z.testbit_neg_r by lia]. rewrite bit_shl, bit_mask by lia. destruct (Z.ltb_spec i 64); cbn [andb]; auto. f_equal; [apply eq_true_iff_eq; rewrite !Z.leb_le; lia|apply eq_true_iff_eq; rewrite !Z.ltb_lt; lia]. }
      rewrite !Mk, Hi by lia. unfold ilv. pose proof (Z.div_mod n 8 ltac:(lia)) as Q. pose proof (Z.mod_pos_bound n 8 ltac:(lia)) as Rg. set (q := n / 8) in *. set (r := n mod 8) in *.
      assert (Jr : Z.of_nat j <= 7) by lia.
      destruct (Z.compare_spec q (Z.of_nat j)) as [Eq|Lt|Gt].
      - (* the block written now *)
        destruct (Z.ltb_spec n (8 * Z.of_nat j)); [lia|]. destruct (Z.ltb_spec n (8 * Z.of_nat (S j))); [|lia]. destruct (Z.ltb_spec n 64); [|lia]. cbn [andb orb].
        destruct (Z.ltb_spec r 4) as [R|R].
        + destruct (Z.leb_spec 0 (n - s)); [|lia]. destruct (Z.ltb_spec (n - s) 64); [|lia]. destruct (Z.leb_spec s (n - s)); [|lia]. destruct (Z.ltb_spec (n - s) (s + 4)); [|lia]. cbn [andb]. rewrite andb_true_r.
          destruct (Z.leb_spec s (n - (s + 4))); [lia|]. rewrite !andb_false_r, orb_false_r. f_equal. lia.
        + destruct (Z.ltb_spec (n - s) (s + 4)); [lia|]. rewrite !andb_false_r. cbn [orb]. destruct (Z.leb_spec 0 (n - (s + 4))); [|lia]. destruct (Z.ltb_spec (n - (s + 4)) 64); [|lia]. destruct (Z.leb_spec s (n - (s + 4))); [|lia]. destruct (Z.ltb_spec (n - (s + 4)) (s + 4)); [|lia]. cbn [andb]. rewrite andb_true_r. f_equal. lia.
      - (* a block already written *)
        destruct (Z.ltb_spec n (8 * Z.of_nat j)); [|lia]. destruct (Z.ltb_spec n (8 * Z.of_nat (S j))); [|lia]. destruct (Z.leb_spec s (n - s)); [lia|]. destruct (Z.leb_spec s (n - (s + 4))); [lia|]. cbn [andb]. rewrite !andb_false_r, !orb_false_r. reflexivity.
      - destruct (Z.ltb_spec n (8 * Z.of_nat j)); [lia|]. destruct (Z.ltb_spec n (8 * Z.of_nat (S j))); [lia|]. destruct (Z.ltb_spec (n - s) (s + 4)); [lia|]. destruct (Z.ltb_spec (n - (s + 4)) (s + 4)); [lia|]. cbn [andb orb]. rewrite !andb_false_r. reflexivity. }
    destruct fuel as [|fuel].
    + assert (j = 7%nat) by lia. subst j. rewrite combine_S. destruct (Z.ltb_spec (4 * Z.of_nat 8) (bmax + 1)); [lia|]. exists ind1. split; auto.
    + apply (IH (S j)); auto; lia.
  - exists ind. split; auto. intros n Hn. rewrite Hi by auto. destruct (Z.ltb_spec n (8 * Z.of_nat j)) as [H|H].
    + destruct (Z.ltb_spec n 64); [reflexivity|lia].
    + cbn [andb]. assert (Zn : ilv x y n = false). { unfold ilv. pose proof (Z.div_mod n 8 ltac:(lia)) as Q. pose proof (Z.mod_pos_bound n 8 ltac:(lia)) as Rg. set (q := n / 8) in *. set (r := n mod 8) in *. assert (Z.of_nat j <= q) by lia. destruct (Z.ltb_spec r 4); apply Hz; lia. } rewrite Zn. now rewrite andb_false_r.
Qed.
Lemma small_bits : forall x k i, 0 <= x < 2 ^ k -> 0 <= k <= i -> Z.testbit x i = false.
Proof. intros x k i Hx Hi. rewrite <- (Z.mod_small x (2 ^ k)) by lia. apply Z.mod_pow2_bits_high. lia. Qed.
Lemma highest_bits : forall x, 0 <= x < 2 ^ 32 -> Z.of_nat (highest x) < 32 /\ forall i, Z.of_nat (highest x) < i -> Z.testbit x i = false.
Proof.
  intros x Hx. assert (W : word x) by (unfold word; lia). destruct (x =? 0) eqn:E.
  - apply Z.eqb_eq in E. subst x. split; [reflexivity|]. intros i Hi. apply Z.bits_0.
  - destruct (highest_exists x W E) as (k & Hk). rewrite (highest_ok x k W Hk). destruct Hk as (H64 & Tk & Bk). split.
    + destruct (Z.ltb_spec (Z.of_nat k) 32); auto. unfold tb in Tk. rewrite (small_bits x 32) in Tk by lia. discriminate.
    + intros i Hi. destruct (Z.ltb_spec i 64) as [H|H]; [|apply (small_bits x 32); lia]. specialize (Bk (Z.to_nat i) ltac:(lia)). unfold tb in Bk. now rewrite Z2Nat.id in Bk by lia.
Qed.
Lemma combine_bits : forall x y, in_range2 x y = true -> exists r, index_combine x y = Ok (Some r) /\ forall n, 0 <= n -> Z.testbit r n = (n <? 64) && ilv x y n.
Proof.
  intros x y H. unfold in_range2 in H. rewrite !andb_true_iff, !Z.leb_le, !Z.ltb_lt in H. destruct H as (Hx & Hy). unfold index_combine, in_range.
  destruct (Z.leb_spec 0 x), (Z.ltb_spec x (2 ^ 64)), (Z.leb_spec 0 y), (Z.ltb_spec y (2 ^ 64)); try lia. cbn [andb negb orb]. destruct (Z.leb_spec (2 ^ 32) x), (Z.leb_spec (2 ^ 32) y); try lia. cbn [orb].
  destruct (highest_bits x Hx) as (Bx & Zx). destruct (highest_bits y Hy) as (By & Zy). set (bm := if _ <? _ then _ else _).
  destruct (combine_loop_ok 15 0 x y bm 0) as (r & E & Hr); try lia.
  - unfold bm. destruct (_ <? _); lia.
  - intros i Hi. unfold bm in Hi. destruct (Z.ltb_spec (Z.of_nat (highest y)) (Z.of_nat (highest x))); split; [apply Zx|apply Zy|apply Zx|apply Zy]; lia.
  - intros n Hn. rewrite Z.bits_0. destruct (Z.ltb_spec n (8 * Z.of_nat 0)); [lia|reflexivity].
  - change (4 * Z.of_nat 0) with 0 in E. rewrite E. cbn [bind]. exists r. auto.
Qed.
Lemma combine_out : forall x y, in_range2 x y = false -> index_combine x y = Ok None.
Proof.
  intros x y H. unfold in_range2 in H. unfold index_combine, in_range. destruct (Z.leb_spec 0 x), (Z.ltb_spec x (2 ^ 64)), (Z.leb_spec 0 y), (Z.ltb_spec y (2 ^ 64)); cbn [andb negb orb]; auto. destruct (Z.leb_spec (2 ^ 32) x), (Z.leb_spec (2 ^ 32) y); cbn [orb]; auto. exfalso. destruct (Z.ltb_spec x (2 ^ 32)), (Z.ltb_spec y (2 ^ 32)); try lia; cbn [andb] in H; discriminate.
Qed.
Lemma bounded_bits : forall r k, 0 <= k -> (forall n, 0 <= n -> Z.testbit r n = (n <? k) && Z.testbit r n) -> 0 <= r mod 2 ^ k /\ r = r mod 2 ^ k.
Proof.
  intros r k Hk H. split; [apply Z.mod_pos_bound; lia|]. apply Z.bits_inj'. intros n Hn. destruct (Z.ltb_spec n k) as [L|L]; [now rewrite Z.mod_pow2_bits_low by lia|]. rewrite Z.mod_pow2_bits_high by lia. rewrite H by auto. destruct (Z.ltb_spec n k); [lia|reflexivity].
Qed.
Lemma bounded : forall r k f, 0 <= k -> (forall n, 0 <= n -> Z.testbit r n = (n <? k) && f n) -> 0 <= r < 2 ^ k.
Proof.
  intros r k f Hk H. destruct (bounded_bits r k Hk) as (A & B). { intros n Hn. rewrite H by auto. now destruct (n <? k). } rewrite B. apply Z.mod_pos_bound. lia.
Qed.
(** bit [n] of a coordinate in an index *)
Definition xbit (i n : Z) : bool := Z.testbit i (8 * (n / 4) + n mod 4).
Definition ybit (i n : Z) : bool := Z.testbit i (8 * (n / 4) + n mod 4 + 4).
Lemma split_loop_ok : forall fuel j i0 x y, 0 <= i0 < 2 ^ 64 -> (8 <= j + fuel)%nat -> (j <= 8)%nat ->
  (forall n, 0 <= n -> Z.testbit x n = (n <? 4 * Z.of_nat j) && xbit i0 n) -> (forall n, 0 <= n -> Z.testbit y n = (n <? 4 * Z.of_nat j) && ybit i0 n) ->
  exists x' y', split_loop (S fuel) (Z.shiftr i0 (8 * Z.of_nat j)) x y (4 * Z.of_nat j) = Ok (x', y') /\
    (forall n, 0 <= n -> Z.testbit x' n = (n <? 32) && xbit i0 n) /\ (forall n, 0 <= n -> Z.testbit y' n = (n <? 32) && ybit i0 n).
Proof.
  induction fuel as [|fuel IH]; intros j i0 x y Hi Hf Hj Hx Hy; rewrite split_S.
  - assert (j = 8%nat) by lia. subst j. assert (Z.shiftr i0 (8 * Z.of_nat 8) = 0) as ->. { rewrite Z.shiftr_div_pow2 by lia. apply Z.div_small. exact Hi. } exists x, y. auto.
  - destruct (Z.eqb_spec (Z.shiftr i0 (8 * Z.of_nat j)) 0) as [E|E].
    + exists x, y. split; auto. assert (Zb : forall m, 8 * Z.of_nat j <= m -> Z.testbit i0 m = false). { intros m Hm. replace m with (m - 8 * Z.of_nat j + 8 * Z.of_nat j) by lia. rewrite <- Z.shiftr_spec by lia. rewrite E. apply Z.bits_0. }
      split; intros n Hn; [rewrite Hx by auto|rewrite Hy by auto]; unfold xbit, ybit; pose proof (Z.div_mod n 4 ltac:(lia)); pose proof (Z.mod_pos_bound n 4 ltac:(lia)); (destruct (Z.ltb_spec n (4 * Z.of_nat j)); [destruct (Z.ltb_spec n 32); [reflexivity|lia]|]); rewrite Zb by lia; now rewrite !andb_false_r.
    + assert (Hj' : (j < 8)%nat). { destruct (Nat.lt_ge_cases j 8); auto. exfalso. apply E. assert (j = 8%nat) by lia. subst j. rewrite Z.shiftr_div_pow2 by lia. apply Z.div_small. exact Hi. }
      unfold INTERLEAVE_SHIFT. cbv zeta. do 2 (rewrite shl_ok by lia; cbn [bind]). rewrite !Z.shiftr_shiftr by lia. replace (8 * Z.of_nat j + (4 + 4)) with (8 * Z.of_nat (S j)) by lia. replace (4 * Z.of_nat j + 4) with (4 * Z.of_nat (S j)) by lia.
      assert (Step : forall (z : Z) (d : Z) (f : Z -> bool), 0 <= d <= 4 -> (forall n, f n = Z.testbit i0 (8 * (n / 4) + n mod 4 + d)) -> (forall n, 0 <= n -> Z.testbit z n = (n <? 4 * Z.of_nat j) && f n) ->
         forall n, 0 <= n -> Z.testbit (Z.lor z (Z.shiftl (Z.land (Z.shiftr i0 (8 * Z.of_nat j + d)) INTERLEAVE_MASK) (4 * Z.of_nat j) mod 2 ^ 64)) n = (n <? 4 * Z.of_nat (S j)) && f n).
      { intros z d f Hd Hf0 Hz n Hn. rewrite Z.lor_spec, Hz, bit_shl, Z.land_spec, bit_mask by lia. rewrite Hf0. pose proof (Z.div_mod n 4 ltac:(lia)) as Q. pose proof (Z.mod_pos_bound n 4 ltac:(lia)) as Rg. set (q := n / 4) in *. set (r := n mod 4) in *.
        destruct (Z.compare_spec q (Z.of_nat j)) as [Eq|Lt|Gt].
        - destruct (Z.ltb_spec n (4 * Z.of_nat j)); [lia|]. destruct (Z.ltb_spec n (4 * Z.of_nat (S j))); [|lia]. destruct (Z.ltb_spec n 64); [|lia]. cbn [andb orb]. destruct (Z.leb_spec 0 (n - 4 * Z.of_nat j)); [|lia]. destruct (Z.ltb_spec (n - 4 * Z.of_nat j) 4); [|lia]. cbn [andb]. rewrite andb_true_r. rewrite Z.shiftr_spec by lia. f_equal. lia.
        - destruct (Z.ltb_spec n (4 * Z.of_nat j)); [|lia]. destruct (Z.ltb_spec n (4 * Z.of_nat (S j))); [|lia]. destruct (Z.leb_spec 0 (n - 4 * Z.of_nat j)); [lia|]. cbn [andb]. now rewrite !andb_false_r, orb_false_r.
        - destruct (Z.ltb_spec n (4 * Z.of_nat j)); [lia|]. destruct (Z.ltb_spec n (4 * Z.of_nat (S j))); [lia|]. destruct (Z.ltb_spec (n - 4 * Z.of_nat j) 4); [lia|]. cbn [andb orb]. now rewrite !andb_false_r. }
      apply (IH (S j)); auto; try lia.
      * pose proof (Step x 0 (xbit i0)) as X. rewrite Z.add_0_r in X. apply X; auto; [lia|]. intros n. unfold xbit. f_equal. lia.
      * apply (Step y 4 (ybit i0)); auto; lia.
Qed.
Lemma split_bits : forall i, 0 <= i < 2 ^ 64 -> exists x y, index_split i = Ok (x, y) /\ (forall n, 0 <= n -> Z.testbit x n = (n <? 32) && xbit i n) /\ (forall n, 0 <= n -> Z.testbit y n = (n <? 32) && ybit i n).
Proof.
  intros i Hi. unfold index_split. apply (split_loop_ok 15 0 i 0 0); auto; try lia; intros n Hn; rewrite Z.bits_0; (destruct (Z.ltb_spec n (4 * Z.of_nat 0)); [lia|reflexivity]).
Qed.

Definition comb (x y : Z) : Z := match index_combine x y with Ok (Some k) => k | _ => -1 end.
Definition sp (i : Z) : Z * Z := match index_split i with Ok p => p | _ => (0, 0) end.
Lemma combine_ok : forall x y, index_combine x y = Ok (if in_range2 x y then Some (comb x y) else None).
Proof.
  intros x y. destruct (in_range2 x y) eqn:R; [|now apply combine_out]. unfold comb. destruct (combine_bits x y R) as (r & -> & _). reflexivity.
Qed.
Lemma comb_range : forall x y, in_range (comb x y) = in_range2 x y.
Proof.
  intros x y. unfold comb. destruct (in_range2 x y) eqn:R; [|now rewrite combine_out by auto]. destruct (combine_bits x y R) as (r & -> & B). apply range_prop. eapply (bounded r 64); [lia|exact B].
Qed.
Lemma split_ok : forall i, in_range i = true -> index_split i = Ok (sp i).
Proof. intros i R. apply range_prop in R. unfold sp. destruct (split_bits i R) as (x & y & -> & _). reflexivity. Qed.
Lemma sp_range : forall i, in_range i = true -> in_range2 (fst (sp i)) (snd (sp i)) = true.
Proof.
  intros i R. apply range_prop in R. unfold sp. destruct (split_bits i R) as (x & y & -> & Bx & By). cbn [fst snd]. pose proof (bounded x 32 _ ltac:(lia) Bx). pose proof (bounded y 32 _ ltac:(lia) By).
  unfold in_range2. rewrite !andb_true_iff, !Z.leb_le, !Z.ltb_lt. lia.
Qed.
Lemma divmod_4 : forall q r, 0 <= r < 4 -> (4 * q + r) / 4 = q /\ (4 * q + r) mod 4 = r.
Proof. intros q r H. split; [symmetry; apply (Z.div_unique _ 4 q r); lia|symmetry; apply (Z.mod_unique _ 4 q r); lia]. Qed.
Lemma divmod_8 : forall q r, 0 <= r < 8 -> (8 * q + r) / 8 = q /\ (8 * q + r) mod 8 = r.
Proof. intros q r H. split; [symmetry; apply (Z.div_unique _ 8 q r); lia|symmetry; apply (Z.mod_unique _ 8 q r); lia]. Qed.
Lemma sp_comb : forall x y, in_range2 x y = true -> sp (comb x y) = (x, y).
Proof.
  intros x y R. assert (R' : in_range (comb x y) = true) by (rewrite comb_range; auto). apply range_prop in R'. unfold sp. destruct (split_bits _ R') as (x' & y' & -> & Bx & By). destruct (combine_bits x y R) as (r & E & B). assert (Er : comb x y = r) by (unfold comb; now rewrite E). rewrite Er in *.
  unfold in_range2 in R. rewrite !andb_true_iff, !Z.leb_le, !Z.ltb_lt in R. destruct R as (Hx & Hy).
  f_equal; apply Z.bits_inj'; intros n Hn; [rewrite Bx by auto|rewrite By by auto]; unfold xbit, ybit; pose proof (Z.div_mod n 4 ltac:(lia)) as Q; pose proof (Z.mod_pos_bound n 4 ltac:(lia)) as Rg; set (q := n / 4) in *; set (r4 := n mod 4) in *; rewrite B by lia; unfold ilv.
  - destruct (divmod_8 q r4 ltac:(lia)) as (-> & ->). destruct (Z.ltb_spec r4 4); [|lia]. destruct (Z.ltb_spec n 32) as [L|L]; cbn [andb].
    + destruct (Z.ltb_spec (8 * q + r4) 64); [|lia]. cbn [andb]. f_equal. lia.
    + symmetry. apply (small_bits x 32); lia.
  - rewrite <- Z.add_assoc. destruct (divmod_8 q (r4 + 4) ltac:(lia)) as (-> & ->). destruct (Z.ltb_spec (r4 + 4) 4); [lia|]. destruct (Z.ltb_spec n 32) as [L|L]; cbn [andb].
    + destruct (Z.ltb_spec (8 * q + (r4 + 4)) 64); [|lia]. cbn [andb]. f_equal. lia.
    + symmetry. apply (small_bits y 32); lia.
Qed.
Lemma comb_sp : forall i, in_range i = true -> comb (fst (sp i)) (snd (sp i)) = i.
Proof.
  intros i R. pose proof (sp_range i R) as R2. pose proof R as R'. apply range_prop in R'. unfold sp in *. destruct (split_bits i R') as (x & y & E & Bx & By). rewrite E in *. cbn [fst snd] in *. destruct (combine_bits x y R2) as (r & Er & B). unfold comb. rewrite Er. apply Z.bits_inj'. intros n Hn. rewrite B by auto.
  unfold ilv. pose proof (Z.div_mod n 8 ltac:(lia)) as Q. pose proof (Z.mod_pos_bound n 8 ltac:(lia)) as Rg. set (q := n / 8) in *. set (r8 := n mod 8) in *. destruct (Z.ltb_spec n 64) as [L|L]; cbn [andb].
  - destruct (Z.ltb_spec r8 4).
    + rewrite Bx by lia. destruct (Z.ltb_spec (4 * q + r8) 32); [|lia]. cbn [andb]. unfold xbit. destruct (divmod_4 q r8 ltac:(lia)) as (-> & ->). f_equal. lia.
    + replace (4 * q + r8 - 4) with (4 * q + (r8 - 4)) by lia. rewrite By by lia. destruct (Z.ltb_spec (4 * q + (r8 - 4)) 32); [|lia]. cbn [andb]. unfold ybit. destruct (divmod_4 q (r8 - 4) ltac:(lia)) as (-> & ->). f_equal. lia.
  - symmetry. apply (small_bits i 64); lia.
Qed.
