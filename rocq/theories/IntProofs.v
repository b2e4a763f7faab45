(** The fixnum/bignum layer computes the mathematical results. *)
From Coq Require Import List Bool ZArith Lia Znumtheory.
From Verif Require Import Outcome BignumModel IntSpec IntModel BignumProofs BignumProofs2 BignumProofs3 BignumProofs4 BignumProofs5 BignumProofs6.
Import ListNotations.
Local Open Scope Z_scope.
Ltac Zify.zify_post_hook ::= idtac.

Lemma can_fix : forall v, canonical (Fix v) <-> -2305843009213693952 <= v <= 2305843009213693951.
Proof. intros. cbn [canonical]. unfold in_fixnum_range. change (2 ^ 61) with 2305843009213693952. lia. Qed.
Lemma ret_ok : forall x z, canonical x -> int_of x = z -> returns (Ok x) z. Proof. intros. exists x. auto. Qed.
Lemma ret_mkint : forall v z, -2305843009213693952 <= v <= 2305843009213693951 -> v = z -> returns (Ok (mkint v)) z.
Proof. intros v z H ->. rewrite mkint_id by exact H. apply ret_ok; auto. now apply can_fix. Qed.
Lemma ret_norm : forall b z, wfb b -> bval b = z -> returns (Ok (normalize b)) z.
Proof. intros b z H E. destruct (wfb_num b H). apply ret_ok; auto. congruence. Qed.
Lemma bval_int : forall b, bval b = int_of (Bn b). Proof. reflexivity. Qed.
Lemma sl_ok : forall x, LONG_MIN <= x <= LONG_MAX -> sl x = Ok x.
Proof. intros. unfold sl. rewrite (proj2 (Z.leb_le _ _)), (proj2 (Z.leb_le _ _)) by lia. reflexivity. Qed.
Lemma big_val : forall b, canonical (Bn b) -> 2305843009213693952 <= Z.abs (bval b) /\ bval b <> -2305843009213693952 /\ (sign b = 1 \/ sign b = -1) /\ bval b = sign b * value (words b) /\ 2305843009213693952 <= value (words b).
Proof.
  intros b H. destruct (canonical_wfb b H) as ((S & F & N) & L & V). destruct H as (_ & _ & _ & R). cbn [int_of] in R. unfold in_fixnum_range in R. change (2 ^ 61) with 2305843009213693952 in R. unfold bval. destruct S as [S|S]; rewrite S in *; repeat split; auto; lia.
Qed.
Lemma can_big : forall b, wfb b -> last (words b) 0 <> 0 -> ~ (-2305843009213693952 <= bval b <= 2305843009213693951) -> canonical (Bn b).
Proof. intros b (S & F & N) L R. cbn [canonical int_of]. unfold in_fixnum_range. change (2 ^ 61) with 2305843009213693952. unfold bval in R. repeat split; auto; try lia. Qed.
Lemma make_integer_ok : forall i, LONG_MIN <= i <= LONG_MAX -> canonical (make_integer i) /\ int_of (make_integer i) = i.
Proof.
  intros i H. unfold make_integer. change FIX_MIN with (-2305843009213693952). change FIX_MAX with 2305843009213693951. unfold LONG_MIN, LONG_MAX in H.
  destruct ((-2305843009213693952 <=? i) && (i <=? 2305843009213693951)) eqn:E.
  - apply andb_prop in E. rewrite Z.leb_le, Z.leb_le in E. rewrite mkint_id by exact E. split; [now apply can_fix|reflexivity].
  - destruct (of_si_wfb i H) as (A & B & C). split; [|exact B]. apply can_big; auto.
    + unfold bignum_of_si. destruct (Z.ltb_spec i 0); cbn [words last]; [lia|]. intros ->. discriminate.
    + rewrite B. intros [X Y]. rewrite (proj2 (Z.leb_le _ _)), (proj2 (Z.leb_le _ _)) in E by lia. discriminate.
Qed.
Lemma make_integer_u_ok : forall i, 0 <= i < W -> canonical (make_integer_u i) /\ int_of (make_integer_u i) = i.
Proof.
  intros i H. unfold make_integer_u. change FIX_MAX with 2305843009213693951. destruct (Z.leb_spec i 2305843009213693951).
  - rewrite mkint_id by (unfold FIX_MIN, FIX_MAX; lia). split; [apply can_fix; lia|reflexivity].
  - assert (A : bval (bignum_of_ui i) = i) by (unfold bval, bignum_of_ui; cbn [sign words value]; lia). split; [|exact A].
    apply can_big. { split; [|split]; cbn; auto; try discriminate. } { cbn. lia. } rewrite A. lia.
Qed.

Lemma num_abs_ok : forall x, canonical x -> canonical (num_abs x) /\ int_of (num_abs x) = Z.abs (int_of x) /\ nwords (num_abs x) = nwords x.
Proof.
  intros [v|b] H; cbn [num_abs].
  - apply can_fix in H. change FIX_MIN with (-2305843009213693952). destruct (Z.ltb_spec v 0); [|cbn [int_of]; split; [now apply can_fix|split; [lia|reflexivity]]].
    destruct (Z.eqb_spec v (-2305843009213693952)) as [->|N].
    + cbn [int_of nwords]. split; [|split; reflexivity]. apply can_big; [apply of_si_wfb; lia|discriminate|]. cbn. lia.
    + rewrite mkint_id by (unfold FIX_MIN, FIX_MAX; lia). cbn [int_of nwords]. split; [apply can_fix; lia|]. split; lia.
  - destruct (big_val b H) as (A & B & S & V & V2). destruct (Z.ltb_spec (sign b) 0) as [L|L]; [|destruct S as [S|S]; [|lia]; rewrite <- !bval_int, V, S; split; [exact H|split; [lia|reflexivity]]].
    destruct S as [S|S]; [lia|]. split; [|split; [rewrite <- !bval_int, V, S; unfold bval; cbn [sign words]; lia|reflexivity]].
    destruct (canonical_wfb b H) as ((_ & F & N) & La & _). apply can_big; auto. { split; [|split]; auto. } unfold bval. cbn [sign words]. lia.
Qed.
Lemma num_sign_ok : forall x, canonical x -> num_sign x = Z.sgn (int_of x).
Proof.
  intros [v|b] H; cbn [num_sign]. { destruct (Z.eqb_spec v 0) as [->|]; [reflexivity|]. cbn [int_of]. destruct (Z.ltb_spec 0 v); lia. }
  destruct (big_val b H) as (A & B & S & V & V2). rewrite <- bval_int, V. destruct S as [-> | ->]; lia.
Qed.
Lemma num_negate_ok : forall x, canonical x -> canonical (num_negate x) /\ int_of (num_negate x) = - int_of x.
Proof.
  intros [v|b] H; cbn [num_negate].
  - apply can_fix in H. change FIX_MIN with (-2305843009213693952). destruct (Z.eqb_spec v (-2305843009213693952)) as [->|N].
    + split; [|reflexivity]. apply can_big; [apply of_si_wfb; lia|discriminate|]. cbn. lia.
    + rewrite mkint_id by (unfold FIX_MIN, FIX_MAX; lia). cbn [int_of]. split; [apply can_fix; lia|reflexivity].
  - destruct (canonical_wfb b H) as ((S & F & N) & La & _). unfold bignum_negate. destruct (wfb_num (Big (- sign b) (words b))) as [P Q]. { split; [|split]; auto. cbn [sign]. lia. }
    split; auto. rewrite Q. unfold bval. cbn [sign words int_of]. lia.
Qed.
Lemma odd_land : forall v, negb (Z.land v 1 =? 0) = Z.odd v.
Proof. intros. change 1 with (Z.ones 1). rewrite Z.land_ones by lia. change (2 ^ 1) with 2. rewrite Zmod_odd. destruct (Z.odd v); reflexivity. Qed.
Lemma num_oddp_ok : forall x, canonical x -> num_oddp x = Ok (Z.odd (int_of x)).
Proof.
  intros [v|b] H; cbn [num_oddp]. { now rewrite odd_land. }
  destruct (canonical_wfb b H) as ((S & F & N) & _). destruct (words b) as [|w t] eqn:E; [contradiction|]. cbn [rd nth_error of_opt bind]. rewrite odd_land. f_equal.
  cbn [int_of]. rewrite E, Z.odd_mul, value_cons, Z.odd_add, Z.odd_mul. change (Z.odd W) with false. rewrite andb_false_l, xorb_false_r. destruct S as [-> | ->]; reflexivity.
Qed.

(** [fixb]: the size-one bignum made of a fixnum *)
Lemma fix_big : forall v, canonical (Fix v) -> wfb (bignum_of_si v) /\ bval (bignum_of_si v) = v /\ nw (bignum_of_si v) = 1 /\ tight (bignum_of_si v).
Proof. intros v H. apply can_fix in H. destruct (of_si_wfb v ltac:(lia)) as (A & B & C). repeat split; auto; try apply A. right. unfold bignum_of_si. destruct (v <? 0); reflexivity. Qed.

Lemma bignum_add_si_ok : forall b y, canonical (Bn b) -> nw b < MAX_DIGITS -> -2305843009213693952 <= y <= 2305843009213693952 -> returns (bignum_add_si b y) (bval b + y).
Proof.
  intros b y H L Y. unfold bignum_add_si. destruct (Z.eqb_spec y 0) as [->|N]. { apply ret_ok; auto. rewrite <- bval_int. lia. }
  destruct (big_val b H) as (A & B & S & V & V2). destruct (add_si_raw_ok b y (canonical_wfb' b H) L ltac:(lia) ltac:(lia)) as (r & -> & Wr & Vr). cbn [bind]. now apply ret_norm.
Qed.
Lemma num_add_ok : forall x y, canonical x -> canonical y -> nwords x < MAX_DIGITS -> nwords y < MAX_DIGITS -> returns (num_add x y) (int_of x + int_of y).
Proof.
  intros [a|a] [b|b] Hx Hy Lx Ly; cbn [num_add nwords] in *.
  - apply can_fix in Hx. apply can_fix in Hy. rewrite sl_ok by (unfold LONG_MIN, LONG_MAX; lia). cbn [bind]. destruct (make_integer_ok (a + b)); [unfold LONG_MIN, LONG_MAX; lia|]. now apply ret_ok.
  - apply can_fix in Hx. destruct (Z.eqb_spec a 0) as [->|]. { now apply ret_ok. } cbn [int_of]. rewrite Z.add_comm. apply bignum_add_si_ok; auto. lia.
  - apply can_fix in Hy. destruct (Z.eqb_spec b 0) as [->|]. { apply ret_ok; auto. cbn [int_of]. lia. }
    apply bignum_add_si_ok; auto.
 cbn [int_of]. lia.
  - unfold bignum_add. destruct (add_raw_ok a b (canonical_wfb' _ Hx) (canonical_wfb' _ Hy) Lx Ly) as (r & -> & Wr & Vr). cbn [bind]. now apply ret_norm.
Qed.
Lemma num_sub_ok : forall x y, canonical x -> canonical y -> nwords x < MAX_DIGITS -> nwords y < MAX_DIGITS -> returns (num_sub x y) (int_of x - int_of y).
Proof.
  intros [a|a] [b|b] Hx Hy Lx Ly; cbn [num_sub nwords] in *.
  - apply can_fix in Hx. apply can_fix in Hy. rewrite sl_ok by (unfold LONG_MIN, LONG_MAX; lia). cbn [bind]. destruct (make_integer_ok (a - b)); [unfold LONG_MIN, LONG_MAX; lia|]. now apply ret_ok.
  - destruct (fix_big a Hx) as (A & B & C & _). unfold bignum_sub. destruct (sub_raw_ok _ b A (canonical_wfb' _ Hy) ltac:(rewrite C; reflexivity) Ly) as (r & -> & Wr & Vr). cbn [bind]. apply ret_norm; auto. rewrite Vr, B. reflexivity.
  - apply can_fix in Hy. destruct (Z.eqb_spec b 0) as [->|N]. { apply ret_ok; auto. cbn [int_of]. lia. } unfold bignum_sub_si. rewrite (proj2 (Z.eqb_neq _ _)) by auto.
    destruct (big_val a Hx) as (A & B & S & V & V2). destruct (add_si_raw_ok a (- b) (canonical_wfb' a Hx) Lx ltac:(lia) ltac:(lia)) as (r & -> & Wr & Vr). cbn [bind]. apply ret_norm; auto.
  - unfold bignum_sub. destruct (sub_raw_ok a b (canonical_wfb' _ Hx) (canonical_wfb' _ Hy) Lx Ly) as (r & -> & Wr & Vr). cbn [bind]. now apply ret_norm.
Qed.

Lemma umulov_ok : forall x y, word x -> word y -> exists r v, umulov x y = (r, v) /\ (v = 0 -> r = x * y /\ word r) /\ (v <> 0 -> W <= x * y) /\ (v = 0 \/ v = 1).
Proof.
  intros x y Hx Hy. unfold umulov. destruct ((x =? 0) || (y =? 0)) eqn:E.
  - exists 0, 0. split; auto. apply orb_prop in E. rewrite !Z.eqb_eq in E. split; [|split; auto; lia]. intros _. split; [destruct E as [-> | ->]; lia|]. unfold word. pose proof W_pos. lia.
  - destruct (umul_ok x y Hx Hy) as (h & l & -> & Hh & Hl & V). destruct (Z.eqb_spec h 0) as [->|N].
    + exists l, 0. repeat split; auto; try lia; unfold word in *; lia.
    + exists l, 1. unfold word in *. split; auto. split; [lia|]. split; [|auto]. intros _. nia.
Qed.
Lemma smulov_ok : forall x y, -2305843009213693952 <= x <= 2305843009213693951 -> -2305843009213693952 <= y <= 2305843009213693951 ->
  exists r v, smulov x y = (r, v) /\ (v = 0 -> r = x * y /\ LONG_MIN <= r <= LONG_MAX) /\ (v <> 0 -> ~ (LONG_MIN <= x * y <= LONG_MAX)).
Proof.
  intros x y Hx Hy. unfold smulov, LONG_MIN, LONG_MAX. assert (WE : W = 18446744073709551616) by reflexivity.
  assert (Sl : forall t, 0 <= t <= 9223372036854775808 -> slong (uwrap (- t)) = - t).
  { intros t Ht. unfold slong, uwrap. rewrite Z.add_mod_idemp_l by discriminate. rewrite Z.mod_small by lia. lia. }
  destruct (Z.leb_spec 0 x), (Z.leb_spec 0 y).
  1: destruct (umulov_ok x y) as (r & v & -> & A & B & D); unfold word; try lia.
  2: destruct (umulov_ok x (- y)) as (r & v & -> & A & B & D); unfold word; try lia.
  3: destruct (umulov_ok (- x) y) as (r & v & -> & A & B & D); unfold word; try lia.
  4: destruct (umulov_ok (- x) (- y)) as (r & v & -> & A & B & D); unfold word; try lia.
  all: destruct D as [-> | ->]; [specialize (A eq_refl); destruct A as [A A2]; unfold word in A2|specialize (B ltac:(lia))]; cbn [negb orb Z.eqb].
  all: repeat match goal with |- context [?a <? ?b] => destruct (Z.ltb_spec a b) end.
  all: eexists; eexists; (split; [reflexivity|]); rewrite ?Sl by lia; split; intros; try lia.
  all: nia.
Qed.
Lemma bignum_mul_si_ok : forall b y, wfb b -> (y = 1 -> canonical (Bn b)) -> nw b < MAX_DIGITS -> -2305843009213693952 <= y <= 2305843009213693951 -> returns (bignum_mul_si b y) (bval b * y).
Proof.
  intros b y H H1 L Y. unfold bignum_mul_si. destruct (Z.eqb_spec y 1) as [->|N1]. { apply ret_ok; auto. rewrite <- bval_int. lia. }
  destruct (Z.eqb_spec y 0) as [->|N]. { apply ret_mkint; lia. }
  destruct (mul_si_raw_ok b y H L N Y) as (r & -> & Wr & Vr). cbn [bind]. now apply ret_norm.
Qed.
Lemma num_mul_ok : forall x y, canonical x -> canonical y -> nwords x + nwords y <= MAX_DIGITS -> returns (num_mul x y) (int_of x * int_of y).
Proof.
  intros [a|a] [b|b] Hx Hy L; cbn [num_mul nwords] in *.
  - pose proof Hx as Hx'. pose proof Hy as Hy'. apply can_fix in Hx'. apply can_fix in Hy'. destruct (smulov_ok a b Hx' Hy') as (k & ov & -> & A & B). cbn [int_of].
    change FIX_MIN with (-2305843009213693952). change FIX_MAX with 2305843009213693951.
    destruct (negb (ov =? 0) || negb ((-2305843009213693952 <=? k) && (k <=? 2305843009213693951))) eqn:E.
    + destruct (fix_big a Hx) as (A1 & B1 & C1 & _). rewrite <- B1 at 2. apply bignum_mul_si_ok; auto. 2: rewrite C1; reflexivity.
      intros ->. exfalso. rewrite Z.mul_1_r in *. apply orb_prop in E. destruct E as [E|E].
      * apply B; [|unfold LONG_MIN, LONG_MAX; lia]. intros ->. discriminate.
      * destruct (Z.eqb_spec ov 0) as [->|N]; [|apply B; auto; unfold LONG_MIN, LONG_MAX; lia]. destruct (A eq_refl) as [-> _]. rewrite (proj2 (Z.leb_le _ _)), (proj2 (Z.leb_le _ _)) in E by lia. discriminate.
    + apply orb_false_elim in E. destruct E as [E1 E2]. apply negb_false_iff in E1. apply Z.eqb_eq in E1. destruct (A E1) as [-> R]. destruct (make_integer_ok (a * b) R). now apply ret_ok.
  - destruct (Z.eqb_spec a 0) as [->|N0]. { now apply ret_ok. } destruct (Z.eqb_spec a 1) as [->|N1]. { apply ret_ok; auto. cbn [int_of]. lia. }
    cbn [int_of]. rewrite Z.mul_comm. rewrite can_fix in Hx. apply bignum_mul_si_ok; auto. { now apply canonical_wfb'. } unfold nw. lia.
  - destruct (Z.eqb_spec b 0) as [->|N0]. { apply ret_ok; auto. cbn [int_of]. lia. } destruct (Z.eqb_spec b 1) as [->|N1]. { apply ret_ok; auto. cbn [int_of]. lia. }
    cbn [int_of]. rewrite can_fix in Hy. apply bignum_mul_si_ok; auto. { now apply canonical_wfb'. } unfold nw. lia.
  - unfold bignum_mul. destruct (mul_raw_ok a b (canonical_wfb' _ Hx) (canonical_wfb' _ Hy) L) as (r & -> & Wr & Vr). cbn [bind]. now apply ret_norm.
Qed.
Lemma big_tight : forall b, canonical (Bn b) -> tight b. Proof. intros b H. left. now destruct (canonical_wfb b H) as (_ & L & _). Qed.
Lemma num_cmp_ok : forall x y, canonical x -> canonical y -> num_cmp x y = Ok (cmpz (int_of x) (int_of y)).
Proof.
  intros [a|a] [b|b] Hx Hy; cbn [num_cmp].
  - apply can_fix in Hx. apply can_fix in Hy. rewrite sl_ok by (unfold LONG_MIN, LONG_MAX; lia). cbn [bind int_of]. rewrite cmpz_spec. f_equal.
    repeat match goal with |- context [?a <? ?b] => destruct (Z.ltb_spec a b) end; lia.
  - destruct (fix_big a Hx) as (A & B & _ & T). destruct (big_val b Hy) as (V & _). rewrite bignum_cmp_ok; auto using canonical_wfb', big_tight. { rewrite B. reflexivity. } right. lia.
  - destruct (fix_big b Hy) as (A & B & _ & T). destruct (big_val a Hx) as (V & _). rewrite bignum_cmp_ok; auto using canonical_wfb', big_tight. { rewrite B. reflexivity. } left. lia.
  - destruct (big_val a Hx) as (V & _). rewrite bignum_cmp_ok; auto using canonical_wfb', big_tight. left. lia.
Qed.
