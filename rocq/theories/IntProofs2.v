(** Division, gcd, lcm and powers. *)
From Coq Require Import List Bool ZArith Lia Znumtheory.
From Verif Require Import Outcome BignumModel IntSpec IntModel BignumProofs BignumProofs2 BignumProofs4 BignumProofs5 BignumProofs6 IntProofs.
Import ListNotations.
Local Open Scope Z_scope.
Ltac Zify.zify_post_hook ::= idtac.

(** sizes *)
Lemma nwords_pos : forall x, canonical x -> 1 <= nwords x.
Proof. intros [v|b] H; cbn [nwords]; [lia|]. destruct (canonical_wfb b H) as ((_ & _ & N) & _). destruct (words b); [contradiction|cbn [length]; lia]. Qed.
Lemma nwords_upper : forall x, canonical x -> Z.abs (int_of x) < W ^ nwords x.
Proof.
  intros [v|b] H; cbn [nwords]. { apply can_fix in H. cbn [int_of]. rewrite Z.pow_1_r. pose proof W_big. lia. }
  destruct (big_val b H) as (_ & _ & S & V & _). destruct (canonical_wfb b H) as ((_ & F & _) & _). pose proof (value_bound _ F). rewrite <- bval_int, V. destruct S as [-> | ->]; lia.
Qed.
Lemma nwords_lower : forall x, canonical x -> x <> Fix 0 -> 1 <= nwords x /\ (nwords x = 1 \/ W ^ (nwords x - 1) <= Z.abs (int_of x)).
Proof.
  intros x H N. split; [now apply nwords_pos|]. destruct x as [v|b]; [auto|]. right. cbn [nwords].
  destruct (big_val b H) as (_ & _ & S & V & _). destruct (canonical_wfb b H) as ((_ & F & Nn) & L & _). pose proof (nonzero_top_big _ F Nn L) as T.
  assert (0 < length (words b))%nat by (destruct (words b); [contradiction|cbn; lia]). replace (Z.of_nat (length (words b)) - 1) with (Z.of_nat (length (words b) - 1)) by lia. rewrite <- bval_int, V.
  assert (0 <= value (words b)) by (apply value_bound; auto). destruct S as [-> | ->]; lia.
Qed.
Lemma nwords_le : forall x n, canonical x -> 1 <= n -> Z.abs (int_of x) < W ^ n -> nwords x <= n.
Proof.
  intros x n H Hn L. destruct x as [v|b]; [cbn [nwords]; lia|]. destruct (nwords_lower (Bn b) H ltac:(discriminate)) as [_ [E|E]]; [lia|].
  destruct (Z.leb_spec (nwords (Bn b)) n); auto. exfalso. assert (W ^ n <= W ^ (nwords (Bn b) - 1)) by (apply Z.pow_le_mono_r; [reflexivity|lia]). lia.
Qed.
Lemma nwords_mono : forall x y, canonical x -> canonical y -> Z.abs (int_of x) <= Z.abs (int_of y) -> nwords x <= nwords y.
Proof. intros x y Hx Hy L. apply nwords_le; auto. { now apply nwords_pos. } pose proof (nwords_upper y Hy). lia. Qed.

(** division *)
Definition quot_exception (x y : Z) : Prop := x = -2305843009213693952 /\ (y = -1 \/ y = 2305843009213693952).
Lemma num_quotient_ok : forall x y, canonical x -> canonical y -> nwords x < MAX_DIGITS -> int_of y <> 0 -> ~ quot_exception (int_of x) (int_of y) ->
  exists q r, num_quotient x y = Ok (q, r) /\ canonical q /\ canonical r /\ int_of q = Z.quot (int_of x) (int_of y) /\ int_of r = Z.rem (int_of x) (int_of y).
Proof.
  intros x y Hx Hy L NZ NE. unfold quot_exception in NE. assert (D : y = Fix 1 \/ num_quotient x y = match x, y with
    | Fix a, Fix b => if b =? 0 then Err else Ok (mkint (Z.quot a b), mkint (Z.rem a b))
    | Fix a, Bn _ => Ok (mkint 0, x)
    | Bn a, Fix b => do p <- bignum_divsi a b; Ok (fst p, mkint (snd p))
    | Bn a, Bn b => bignum_divrem a b end).
  { unfold num_quotient. destruct y as [[|[p|p|]|p]|]; auto. }
  destruct D as [-> | D].
  { exists x, (mkint 0). rewrite mkint_id by (unfold FIX_MIN, FIX_MAX; lia). cbn [int_of]. rewrite Z.quot_1_r, Z.rem_1_r. repeat split; auto; apply can_fix; lia. }
  rewrite D. destruct x as [a|a], y as [b|b]; cbn [int_of] in NZ, NE |- *.
  - apply can_fix in Hx. apply can_fix in Hy. rewrite (proj2 (Z.eqb_neq _ _)) by auto.
    assert (Rb : -2305843009213693952 <= Z.rem a b <= 2305843009213693951) by (pose proof (Z.rem_bound_abs a b NZ); lia).
    assert (Qb : -2305843009213693952 <= Z.quot a b <= 2305843009213693951).
    { pose proof (Z.quot_rem a b NZ) as E. pose proof (Z.rem_bound_abs a b NZ) as Rb2. destruct (Z.eq_dec b 1) as [->|]; [rewrite Z.quot_1_r; lia|]. destruct (Z.eq_dec b (-1)) as [->|]; [change (-1) with (- (1)); rewrite Z.quot_opp_r, Z.quot_1_r by lia; lia|].
      assert (Z.abs (Z.quot a b) * 2 <= Z.abs a); [|lia]. rewrite <- Z.quot_abs by auto. rewrite Z.quot_div_nonneg by lia. pose proof (Z.mul_div_le (Z.abs a) (Z.abs b) ltac:(lia)). assert (0 <= Z.abs a / Z.abs b) by (apply Z.div_pos; lia). assert (2 <= Z.abs b) by lia. nia. }
    rewrite !mkint_id by (unfold FIX_MIN, FIX_MAX; lia). exists (Fix (Z.quot a b)), (Fix (Z.rem a b)). split; auto. split; [now apply can_fix|]. split; [now apply can_fix|]. auto.
  - apply can_fix in Hx. destruct (big_val b Hy) as (A & B & S & V & V2). change (sign b * value (words b)) with (bval b) in *.
    assert (Lt : Z.abs a < Z.abs (bval b)) by lia. rewrite mkint_id by (unfold FIX_MIN, FIX_MAX; lia). exists (Fix 0), (Fix a). split; auto. split; [apply can_fix; lia|]. split; [now apply can_fix|].
    cbn [int_of]. split; symmetry; [apply Z.quot_small_iff; lia|apply Z.rem_small_iff; lia].
  - apply can_fix in Hy. destruct (divsi_ok a b (canonical_wfb' _ Hx) L NZ ltac:(lia)) as (q & -> & C & E). cbn [bind fst snd]. pose proof (Z.rem_bound_abs (bval a) b NZ) as Rb. change (sign a * value (words a)) with (bval a) in *.
    assert (Rb2 : -2305843009213693952 <= Z.rem (bval a) b <= 2305843009213693951) by lia.
    rewrite mkint_id by (unfold FIX_MIN, FIX_MAX; lia). exists q, (Fix (Z.rem (bval a) b)). split; auto. split; auto. split; [now apply can_fix|]. auto.
  - destruct (divrem_ok a b Hx Hy L) as (q & r & -> & A & B & C & E). exists q, r. auto.
Qed.

Lemma rem_floor : forall x y, y <> 0 -> x mod y = if (Z.rem x y =? 0) then 0 else if (x <? 0) && (0 <? y) || (0 <? x) && (y <? 0) then Z.rem x y + y else Z.rem x y.
Proof.
  intros x y Hy. pose proof (Z.quot_rem x y Hy) as E. pose proof (Z.rem_bound_abs x y Hy) as B. set (q := Z.quot x y) in *.
  assert (Sg : 0 <= x -> 0 <= Z.rem x y) by (intros; apply Z.rem_nonneg; auto). assert (Sg2 : x <= 0 -> Z.rem x y <= 0) by (intros; apply Z.rem_nonpos; auto). set (r := Z.rem x y) in *. clearbody q r.
  destruct (Z.eqb_spec r 0) as [->|N]. { rewrite E, Z.add_0_r, Z.mul_comm, Z.mod_mul by auto. reflexivity. }
  destruct (Z.ltb_spec x 0), (Z.ltb_spec 0 y), (Z.ltb_spec 0 x), (Z.ltb_spec y 0); cbn [andb orb]; try lia; symmetry;
    first [apply Z.mod_unique with (q - 1); [|lia] | apply Z.mod_unique with q; [|lia]]; lia.
Qed.
Lemma num_modulo_ok : forall x y (remp : bool), canonical x -> canonical y -> nwords x < MAX_DIGITS -> nwords y < MAX_DIGITS -> int_of y <> 0 ->
  (remp = true -> ~ (int_of x = -2305843009213693952 /\ int_of y = 2305843009213693952)) ->
  returns (num_modulo x y remp) (if remp then Z.rem (int_of x) (int_of y) else int_of x mod int_of y).
Proof.
  intros x y remp Hx Hy Lx Ly NZ NE. destruct x as [a|a], y as [b|b]; cbn [num_modulo nwords] in *.
  - cbn [int_of] in *. apply can_fix in Hx. apply can_fix in Hy. rewrite (proj2 (Z.eqb_neq b 0)) by auto. pose proof (Z.rem_bound_abs a b NZ) as Rb. destruct remp; cbn [negb andb].
    { apply ret_mkint; lia. }
    rewrite rem_floor by auto. destruct (Z.eqb_spec (Z.rem a b) 0) as [E|E]; cbn [negb andb]. { apply ret_mkint; lia. }
    rewrite orb_comm. destruct ((a <? 0) && (0 <? b) || (0 <? a) && (b <? 0)) eqn:E2.
    + assert (Bd : -2305843009213693952 <= Z.rem a b + b <= 2305843009213693951).
      { assert (Sg : 0 <= a -> 0 <= Z.rem a b) by (intros; apply Z.rem_nonneg; auto). assert (Sg2 : a <= 0 -> Z.rem a b <= 0) by (intros; apply Z.rem_nonpos; auto). rewrite orb_true_iff, !andb_true_iff, !Z.ltb_lt in E2. lia. }
      rewrite sl_ok by (unfold LONG_MIN, LONG_MAX; lia). cbn [bind]. apply ret_mkint; lia.
    + apply ret_mkint; lia.
  - destruct (big_val b Hy) as (A & B & S & V & V2). pose proof Hx as Hx'. apply can_fix in Hx'. change (int_of (Bn b)) with (bval b) in *. cbn [int_of] in *.
    destruct remp. { apply ret_ok; auto. cbn [int_of]. symmetry. apply Z.rem_small_iff; [lia|]. specialize (NE eq_refl). lia. }
    assert (Sb : sign b = Z.sgn (bval b)) by (rewrite V; destruct S as [-> | ->]; lia). rewrite Sb.
    replace (0 <? Z.sgn (bval b)) with (0 <? bval b) by (destruct (Z.ltb_spec 0 (bval b)), (Z.ltb_spec 0 (Z.sgn (bval b))); lia).
    replace (Z.sgn (bval b) <? 0) with (bval b <? 0) by (destruct (Z.ltb_spec (bval b) 0), (Z.ltb_spec (Z.sgn (bval b)) 0); lia).
    destruct ((a <? 0) && (0 <? bval b) || (0 <? a) && (bval b <? 0)) eqn:E2.
    + replace (a mod bval b) with (bval b + a). { apply bignum_add_si_ok; auto. lia. }
      rewrite orb_true_iff, !andb_true_iff, !Z.ltb_lt in E2. apply Z.mod_unique with (-1); [|lia]. lia.
    + apply ret_ok; auto. cbn [int_of]. symmetry. apply orb_false_iff in E2. destruct E2 as [E2 E3]. rewrite andb_false_iff, !Z.ltb_ge in E2. rewrite andb_false_iff, !Z.ltb_ge in E3.
      symmetry. apply Z.mod_unique with 0; [|lia]. lia.
  - destruct (big_val a Hx) as (A & B & S & V & V2). change (int_of (Bn a)) with (bval a) in *. cbn [int_of] in *. apply can_fix in Hy.
    rewrite (remsi_ok a b) by (auto using canonical_wfb'). cbn [bind]. pose proof (Z.rem_bound_abs (bval a) b NZ) as Rb. destruct remp; cbn [negb andb]. { apply ret_mkint; lia. }
    rewrite rem_floor by auto. assert (Sb : sign a = Z.sgn (bval a)) by (rewrite V; destruct S as [-> | ->]; lia). rewrite Sb.
    replace (0 <? Z.sgn (bval a)) with (0 <? bval a) by (destruct (Z.ltb_spec 0 (bval a)), (Z.ltb_spec 0 (Z.sgn (bval a))); lia).
    replace (Z.sgn (bval a) <? 0) with (bval a <? 0) by (destruct (Z.ltb_spec (bval a) 0), (Z.ltb_spec (Z.sgn (bval a)) 0); lia).
    destruct (Z.eqb_spec (Z.rem (bval a) b) 0) as [E|E]; cbn [negb andb]. { apply ret_mkint; lia. }
    destruct ((bval a <? 0) && (0 <? b) || (0 <? bval a) && (b <? 0)) eqn:E2.
    + assert (Bd : -2305843009213693952 <= b + Z.rem (bval a) b <= 2305843009213693951).
      { assert (Sg : 0 <= bval a -> 0 <= Z.rem (bval a) b) by (intros; apply Z.rem_nonneg; auto). assert (Sg2 : bval a <= 0 -> Z.rem (bval a) b <= 0) by (intros; apply Z.rem_nonpos; auto). rewrite orb_true_iff, !andb_true_iff, !Z.ltb_lt in E2. lia. }
      rewrite sl_ok by (unfold LONG_MIN, LONG_MAX; lia). cbn [bind]. apply ret_mkint; lia.
    + apply ret_mkint; lia.
  - destruct (big_val a Hx) as (A & B & S & V & V2). destruct (big_val b Hy) as (A' & B' & S' & V' & V2'). change (int_of (Bn a)) with (bval a) in *. change (int_of (Bn b)) with (bval b) in *.
    destruct (divrem_ok a b Hx Hy Lx) as (q & r & -> & Cq & Cr & Eq & Er). cbn [bind snd].
    assert (D : forall (P : res num -> Prop) X, (int_of r = 0 -> P (Ok r)) -> (int_of r <> 0 -> P X) -> P (match r with Fix 0 => Ok r | _ => X end)).
    { intros P X H0 H1. destruct r as [[|p|p]|c]; [apply H0; reflexivity|apply H1; discriminate|apply H1; discriminate|apply H1]. destruct (big_val c Cr) as (? & _). change (bval c <> 0). lia. }
    apply D; intros R0.
    + apply ret_ok; auto. rewrite R0. rewrite Er in R0. destruct remp; [auto|]. rewrite rem_floor by auto. rewrite R0. reflexivity.
    + destruct remp; cbn [negb andb]. { apply ret_ok; auto. }
      rewrite rem_floor by auto. rewrite <- Er. rewrite (proj2 (Z.eqb_neq _ _)) by auto.
      replace ((bval a <? 0) && (0 <? bval b) || (0 <? bval a) && (bval b <? 0)) with (sign a * sign b <? 0).
      2: { rewrite V, V'. clear - S S' V2 V2'. destruct S as [-> | ->], S' as [-> | ->]; repeat match goal with |- context [?a <? ?b] => destruct (Z.ltb_spec a b) end; cbn [andb orb]; lia. }
      destruct (sign a * sign b <? 0). 2: { now apply ret_ok. }
      destruct r as [r|r].
      * rewrite can_fix in Cr. cbn [int_of]. rewrite Z.add_comm. apply bignum_add_si_ok; auto. lia.
      * assert (Lr : nwords (Bn r) <= nwords (Bn b)). { apply nwords_mono; auto. rewrite Er. change (int_of (Bn b)) with (bval b). pose proof (Z.rem_bound_abs (bval a) (bval b) NZ). lia. } cbn [nwords] in Lr.
        rewrite Z.add_comm. unfold bignum_add. destruct (add_raw_ok b r (canonical_wfb' _ Hy) (canonical_wfb' _ Cr) ltac:(unfold nw; lia) ltac:(unfold nw; lia)) as (s & -> & Ws & Vs). cbn [bind]. now apply ret_norm.
Qed.
