(** C07-C11: exact integers.  [canonical] and [int_of] are in IntSpec: an object and the
    integer it stands for; [returns r z] says that r succeeds with a canonical object for z.
    The bounds [nwords x < MAX_DIGITS] (2^30 - 1 words) are where Gauche raises "too big". *)
From Coq Require Import List Bool ZArith Znumtheory Lia.
From Verif Require Import Outcome BignumModel IntModel IntSpec BignumProofs BignumProofs2 BignumProofs3 BignumProofs4 BignumProofs5 BignumProofs6 IntProofs IntProofs2 IntProofs3 IntProofs4 IntProofs6 IntProofs7 IntTextModel IntTextSpec IntTextProofs.
Import ListNotations.
Local Open Scope Z_scope.
Ltac Zify.zify_post_hook ::= idtac.

(** * C07 *)
Theorem int_add_exact : forall x y, canonical x -> canonical y -> nwords x < MAX_DIGITS -> nwords y < MAX_DIGITS -> returns (num_add x y) (int_of x + int_of y).
Proof. exact num_add_ok. Qed.
Theorem int_sub_exact : forall x y, canonical x -> canonical y -> nwords x < MAX_DIGITS -> nwords y < MAX_DIGITS -> returns (num_sub x y) (int_of x - int_of y).
Proof. exact num_sub_ok. Qed.
Theorem int_mul_exact : forall x y, canonical x -> canonical y -> nwords x + nwords y <= MAX_DIGITS -> returns (num_mul x y) (int_of x * int_of y).
Proof. exact num_mul_ok. Qed.
Theorem int_negate_exact : forall x, canonical x -> canonical (num_negate x) /\ int_of (num_negate x) = - int_of x.
Proof. exact num_negate_ok. Qed.
Theorem int_abs_exact : forall x, canonical x -> canonical (num_abs x) /\ int_of (num_abs x) = Z.abs (int_of x).
Proof. intros x C. destruct (num_abs_ok x C) as (A & B & _). auto. Qed.
(** comparison and parity *)
Theorem int_compare_exact : forall x y, canonical x -> canonical y -> exists c, num_cmp x y = Ok c /\ (c < 0 <-> int_of x < int_of y) /\ (c = 0 <-> int_of x = int_of y) /\ (0 < c <-> int_of y < int_of x).
Proof.
  intros x y Cx Cy. exists (cmpz (int_of x) (int_of y)). split; [apply num_cmp_ok; auto|]. unfold cmpz. destruct (Z.compare_spec (int_of x) (int_of y)); repeat split; intros; lia.
Qed.
Theorem int_sign_exact : forall x, canonical x -> num_sign x = Z.sgn (int_of x).
Proof. exact num_sign_ok. Qed.
Theorem int_odd_exact : forall x, canonical x -> num_oddp x = Ok (Z.odd (int_of x)).
Proof. exact num_oddp_ok. Qed.
(** Examples: carries across words and the fixnum boundary *)
Definition big_2_128m1 := Bn (Big 1 [2 ^ 64 - 1; 2 ^ 64 - 1]).
Example C07_ex_canonical : canonical big_2_128m1 /\ canonical (Fix (2 ^ 61 - 1)) /\ int_of big_2_128m1 = 2 ^ 128 - 1.
Proof. split; [|split; [|reflexivity]]. - split; [left; reflexivity|]. split; [repeat constructor; discriminate|]. split; [discriminate|]. intros (_ & H). vm_compute in H. discriminate. - split; vm_compute; [discriminate|reflexivity]. Qed.
Example C07_ex1 : num_add big_2_128m1 (Fix 1) = Ok (Bn (Big 1 [0; 0; 1])). Proof. vm_compute. reflexivity. Qed.
Example C07_ex2 : num_sub (Fix (- 2 ^ 61)) (Fix 1) = Ok (Bn (Big (-1) [2 ^ 61 + 1])). Proof. vm_compute. reflexivity. Qed.
Example C07_ex3 : num_mul big_2_128m1 big_2_128m1 = Ok (Bn (Big 1 [1; 0; 2 ^ 64 - 2; 2 ^ 64 - 1])). Proof. vm_compute. reflexivity. Qed.
Example C07_ex4 : num_sub big_2_128m1 big_2_128m1 = Ok (Fix 0). Proof. vm_compute. reflexivity. Qed.

(** * C08 *)
(** quotient and remainder truncate: n = q*d + r, |r| < |d| and r has the sign of n *)
Theorem int_quotient_remainder_partial : forall x y, canonical x -> canonical y -> nwords x < MAX_DIGITS -> int_of y <> 0 ->
  ~ (int_of x = - 2 ^ 61 /\ (int_of y = -1 \/ int_of y = 2 ^ 61)) ->
  exists q r, num_quotient x y = Ok (q, r) /\ canonical q /\ canonical r /\ int_of x = int_of q * int_of y + int_of r
    /\ Z.abs (int_of r) < Z.abs (int_of y) /\ 0 <= int_of r * int_of x.
Proof.
  intros x y Cx Cy Hx Hy Ne. destruct (num_quotient_ok x y Cx Cy Hx Hy) as (q & r & E & Cq & Cr & Eq & Er). { exact Ne. }
  exists q, r. split; auto. split; auto. split; auto. rewrite Eq, Er. split; [pose proof (Z.quot_rem' (int_of x) (int_of y)); lia|]. split; [apply Z.rem_bound_abs; auto|]. apply Z.rem_sign_mul; auto.
Qed.
(** what the excepted operands give: all three results are wrong *)
Theorem int_quotient_least_fixnum_refuted : exists x y q r, canonical x /\ canonical y /\ int_of x = - 2 ^ 61 /\ int_of y = -1 /\
  num_quotient x y = Ok (q, r) /\ int_of x <> int_of q * int_of y + int_of r.
Proof. exists (Fix (- 2 ^ 61)), (Fix (-1)), (Fix (- 2 ^ 61)), (Fix 0). repeat split; try (vm_compute; discriminate || reflexivity). Qed.
Theorem int_quotient_fix_by_big_refuted : exists x y q r, canonical x /\ canonical y /\ int_of x = - 2 ^ 61 /\ int_of y = 2 ^ 61 /\
  num_quotient x y = Ok (q, r) /\ int_of r = - 2 ^ 61.
Proof.
  exists (Fix (- 2 ^ 61)), (Bn (Big 1 [2 ^ 61])), (Fix 0), (Fix (- 2 ^ 61)). split; [split; vm_compute; [discriminate|reflexivity]|]. split.
  { split; [left; reflexivity|]. split; [repeat constructor; discriminate|]. split; [discriminate|]. intros (_ & H). vm_compute in H. discriminate. }
  repeat split.
Qed.
(** dividing a bignum by 0 is not checked (it is a machine division by zero) *)
Theorem int_quotient_big_by_zero_refuted : exists x, canonical x /\ num_quotient x (Fix 0) = UB /\ num_modulo x (Fix 0) false = UB.
Proof. exists big_2_128m1. split; [apply C07_ex_canonical|]. split; vm_compute; reflexivity. Qed.
Theorem int_quotient_fix_by_zero : forall a, num_quotient (Fix a) (Fix 0) = Err /\ num_modulo (Fix a) (Fix 0) false = Err.
Proof. intros a. split; reflexivity. Qed.
Theorem int_remainder_partial : forall x y, canonical x -> canonical y -> nwords x < MAX_DIGITS -> nwords y < MAX_DIGITS -> int_of y <> 0 ->
  ~ (int_of x = - 2 ^ 61 /\ int_of y = 2 ^ 61) ->
  exists r, num_modulo x y true = Ok r /\ canonical r /\ (exists q, int_of x = q * int_of y + int_of r) /\ Z.abs (int_of r) < Z.abs (int_of y) /\ 0 <= int_of r * int_of x.
Proof.
  intros x y Cx Cy Hx Hy H0 Ne. destruct (num_modulo_ok x y true Cx Cy Hx Hy H0 (fun _ => Ne)) as (r & E & C & V). exists r. split; auto. split; auto. rewrite V.
  split; [exists (Z.quot (int_of x) (int_of y)); pose proof (Z.quot_rem' (int_of x) (int_of y)); lia|]. split; [apply Z.rem_bound_abs; auto|]. apply Z.rem_sign_mul; auto.
Qed.
(** modulo: the result has the sign of the divisor *)
Theorem int_modulo : forall x y, canonical x -> canonical y -> nwords x < MAX_DIGITS -> nwords y < MAX_DIGITS -> int_of y <> 0 ->
  exists r, num_modulo x y false = Ok r /\ canonical r /\ (exists q, int_of x = q * int_of y + int_of r) /\ (0 <= int_of r < int_of y \/ int_of y < int_of r <= 0).
Proof.
  intros x y Cx Cy Hx Hy H0. destruct (num_modulo_ok x y false Cx Cy Hx Hy H0) as (r & E & C & V). { discriminate. } exists r. split; auto. split; auto. rewrite V.
  split; [exists (int_of x / int_of y); pose proof (Z.div_mod (int_of x) (int_of y) H0); lia|]. apply Z.mod_bound_or. exact H0.
Qed.
Example C08_ex1 : num_quotient (Bn (Big (-1) [5; 0; 7])) (Bn (Big 1 [2 ^ 64 - 1; 3])) = Ok (Bn (Big (-1) [13835058055282163712; 1]), Bn (Big (-1) [13835058055282163717; 1])). Proof. vm_compute. reflexivity. Qed.
Example C08_ex2 : num_modulo (Bn (Big (-1) [5; 0; 7])) (Fix 1000) false = Ok (Fix 803). Proof. vm_compute. reflexivity. Qed.

(** * C09 *)
(** two canonical objects for the same integer are the same object; that every producer
    returns canonical objects is part of each theorem here ([returns], [canonical]) *)
Theorem int_canonical_unique : forall x y, canonical x -> canonical y -> int_of x = int_of y -> x = y.
Proof. exact canonical_unique. Qed.
Theorem int_canonical_fixnum_iff : forall x, canonical x -> ((exists v, x = Fix v) <-> - 2 ^ 61 <= int_of x < 2 ^ 61).
Proof.
  intros [v|b] C; cbn [int_of]; split; intros H; eauto.
  - destruct H as (v & H). discriminate.
  - destruct C as (_ & _ & _ & C). contradiction.
Qed.
(** the two producers, from a machine integer and from a sum or product of words *)
Theorem int_normalize_canonical : forall sg ws, sg = 1 \/ sg = -1 -> ws <> [] -> Forall is_word ws -> canonical (normalize (Big sg ws)) /\ int_of (normalize (Big sg ws)) = sg * value ws.
Proof.
  intros sg ws S N F. destruct (ret_norm (Big sg ws) (sg * value ws)) as (n & E & C & V). { split; [|split]; auto. } { reflexivity. } injection E as E. rewrite E. auto.
Qed.
Theorem int_make_integer_canonical : forall i, - 2 ^ 63 <= i < 2 ^ 63 -> canonical (make_integer i) /\ int_of (make_integer i) = i.
Proof. intros i H. apply make_integer_ok. unfold LONG_MIN, LONG_MAX. change (2 ^ 63) with 9223372036854775808 in H. lia. Qed.
(** ash by 0 of the extreme fixnums breaks canonicity *)
Theorem int_ash_noncanonical_refuted : exists x r, canonical x /\ num_ash x 0 = Ok r /\ int_of r = int_of x /\ ~ canonical r.
Proof.
  exists (Fix (2 ^ 61 - 1)), (Bn (Big 1 [2 ^ 61 - 1])). split; [apply C07_ex_canonical|]. split; [vm_compute; reflexivity|]. split; [reflexivity|]. intros (_ & _ & _ & H). apply H. split; vm_compute; [discriminate|reflexivity].
Qed.
Example C09_ex : normalize (Big (-1) [2 ^ 61; 0; 0]) = Fix (- 2 ^ 61) /\ normalize (Big 1 [2 ^ 61; 0]) = Bn (Big 1 [2 ^ 61]). Proof. split; vm_compute; reflexivity. Qed.

(** * C10 *)
(** number->string writes a numeral for |n| without leading zeros, after the sign *)
Theorem int_to_string : forall x r upper plus, canonical x -> 2 <= r <= 36 -> exists ds,
  number_to_string x r upper plus = Ok ((if int_of x <? 0 then [45] else if plus then [43] else []) ++ ds)
  /\ numeral r ds /\ numeral_value r ds = Z.abs (int_of x) /\ no_leading_zero ds.
Proof. exact number_to_string_ok. Qed.
(** string->number of a numeral: [limit] is the table entry for the radix (computed in
    doubles), of which only its magnitude matters *)
Theorem int_of_string : forall sg ds r limit, 2 <= r <= 36 -> 0 <= limit <= 2 ^ 63 / r + 2048 -> numeral r ds -> numeral_value r ds < RLIM ->
  sg = [] \/ ((sg = [43] \/ sg = [45]) /\ ds <> [105] /\ ds <> [73]) ->
  exists n, read_number r limit (sg ++ ds) = Ok (RdNum n) /\ canonical n /\ int_of n = if match sg with [45] => true | _ => false end then - numeral_value r ds else numeral_value r ds.
Proof. exact read_number_ok. Qed.
(** the round trip.  A one-digit "i" after a sign is the imaginary unit, hence the
    exception; RLIM is 2^(64*(2^30 - 9)). *)
Lemma letter_i : forall r ds, ds = [105] \/ ds = [73] -> numeral r ds -> numeral_value r ds = 18 /\ 18 < r.
Proof. intros r ds [-> | ->] (_ & F); inversion F as [|? ? (d & H & L) _]; subst; injection H as <-; split; auto. Qed.
Theorem int_text_roundtrip_partial : forall x r upper plus limit, canonical x -> 2 <= r <= 36 -> 0 <= limit <= 2 ^ 63 / r + 2048 -> Z.abs (int_of x) < RLIM ->
  ~ (18 < r /\ (int_of x = -18 \/ (int_of x = 18 /\ plus = true))) ->
  exists s, number_to_string x r upper plus = Ok s /\ read_number r limit s = Ok (RdNum x).
Proof.
  intros x r upper plus limit C Hr Hl B Ne. destruct (number_to_string_ok x r upper plus C Hr) as (ds & E & Hn & Hv & _). rewrite E. eexists. split; [reflexivity|].
  unfold sign_of. destruct (read_number_ok (sign_of x plus) ds r limit Hr Hl Hn) as (n & En & Cn & Vn). { now rewrite Hv. }
  - unfold sign_of. clear B.
    assert (X : (int_of x = -18 \/ (int_of x = 18 /\ plus = true)) -> ds <> [105] /\ ds <> [73]). { intros X. split; intros Ed; [destruct (letter_i r ds (or_introl Ed) Hn)|destruct (letter_i r ds (or_intror Ed) Hn)]; apply Ne; auto. }
    assert (Y : Z.abs (int_of x) <> 18 -> ds <> [105] /\ ds <> [73]). { intros Y. split; intros Ed; [destruct (letter_i r ds (or_introl Ed) Hn)|destruct (letter_i r ds (or_intror Ed) Hn)]; lia. }
    destruct (Z.ltb_spec (int_of x) 0); [|destruct plus; [|left; reflexivity]]; right; (split; [auto|]).
    + destruct (Z.eq_dec (int_of x) (-18)); [apply X; auto|apply Y; lia].
    + destruct (Z.eq_dec (int_of x) 18); [apply X; auto|apply Y; lia].
  - unfold sign_of in En. rewrite En. do 2 f_equal. apply canonical_unique; auto. rewrite Vn, Hv. unfold sign_of. destruct (Z.ltb_spec (int_of x) 0); [lia|]. destruct plus; lia.
Qed.
Theorem int_text_roundtrip_refuted : exists x r limit s, canonical x /\ 2 <= r <= 36 /\ number_to_string x r false false = Ok s /\ read_number r limit s = Ok (RdImag false).
Proof. exists (Fix (-18)), 36, (2 ^ 63 / 36 - 36), [45; 105]. split; [split; vm_compute; [discriminate|reflexivity]|]. split; [lia|]. split; vm_compute; reflexivity. Qed.
Example C10_ex1 : number_to_string (Bn (Big (-1) [0; 1])) 10 false false = Ok [45; 49; 56; 52; 52; 54; 55; 52; 52; 48; 55; 51; 55; 48; 57; 53; 53; 49; 54; 49; 54]. Proof. vm_compute. reflexivity. Qed.
Example C10_ex2 : read_number 10 (2 ^ 63 / 10 - 10) [45; 49; 56; 52; 52; 54; 55; 52; 52; 48; 55; 51; 55; 48; 57; 53; 53; 49; 54; 49; 54] = Ok (RdNum (Bn (Big (-1) [0; 1]))). Proof. vm_compute. reflexivity. Qed.
Example C10_ex3 : Z.abs (int_of (Bn (Big (-1) [0; 1]))) < RLIM /\ ~ (18 < 10 /\ (int_of (Bn (Big (-1) [0; 1])) = -18 \/ (int_of (Bn (Big (-1) [0; 1])) = 18 /\ false = true))).
Proof. split; [|intros (H & _); lia]. apply Z.lt_le_trans with (W ^ 2); [reflexivity|]. rewrite RLIM_eq. apply Z.pow_le_mono_r; [reflexivity|]. discriminate. Qed.

(** * C11 *)
(** gcd and lcm of any number of arguments: greatest common divisor, least common multiple *)
Lemma gcd_list_div : forall l z, In z l -> (fold_right Z.gcd 0 l | z).
Proof. induction l as [|a l IH]; intros z []; cbn [fold_right]. - subst. apply Z.gcd_divide_l. - apply Z.divide_trans with (fold_right Z.gcd 0 l); auto. apply Z.gcd_divide_r. Qed.
Lemma gcd_list_greatest : forall l d, (forall z, In z l -> (d | z)) -> (d | fold_right Z.gcd 0 l).
Proof. induction l as [|a l IH]; intros d H; cbn [fold_right]. - apply Z.divide_0_r. - apply Z.gcd_greatest; [apply H; left; auto|]. apply IH. intros; apply H; right; auto. Qed.
Lemma lcm_list_div : forall l z, In z l -> (z | fold_right Z.lcm 1 l).
Proof. induction l as [|a l IH]; intros z []; cbn [fold_right]. - subst. apply Z.divide_lcm_l. - apply Z.divide_trans with (fold_right Z.lcm 1 l); auto. apply Z.divide_lcm_r. Qed.
Lemma lcm_list_least : forall l m, (forall z, In z l -> (z | m)) -> (fold_right Z.lcm 1 l | m).
Proof. induction l as [|a l IH]; intros m H; cbn [fold_right]. - apply Z.divide_1_l. - apply Z.lcm_least; [apply H; left; auto|]. apply IH. intros; apply H; right; auto. Qed.
Theorem int_gcd : forall args, Forall (fun x => canonical x /\ nwords x < MAX_DIGITS) args -> exists g, scheme_gcd args = Ok g /\ canonical g /\ 0 <= int_of g
  /\ (forall x, In x args -> (int_of g | int_of x)) /\ (forall d, (forall x, In x args -> (d | int_of x)) -> (d | int_of g)).
Proof.
  intros args F. destruct (scheme_gcd_ok args F) as (g & E & C & V). exists g. split; auto. split; auto. rewrite V. split.
  { destruct args; cbn [map fold_right]; [lia|apply Z.gcd_nonneg]. }
  split. - intros x H. apply gcd_list_div. now apply in_map. - intros d H. apply gcd_list_greatest. intros z Hz. apply in_map_iff in Hz. destruct Hz as (x & <- & Hx). auto.
Qed.
Theorem int_lcm : forall args, Forall canonical args -> fold_right Z.add 0 (map nwords args) < MAX_DIGITS -> exists m, scheme_lcm args = Ok m /\ canonical m /\ 0 <= int_of m
  /\ (forall x, In x args -> (int_of x | int_of m)) /\ (forall k, (forall x, In x args -> (int_of x | k)) -> (int_of m | k)).
Proof.
  intros args F S. destruct (scheme_lcm_ok args F) as (g & E & C & V). { assert (Es : sum_words args = fold_right Z.add 0 (map nwords args)) by (clear; induction args; unfold sum_words in *; cbn [map fold_right]; [reflexivity|try rewrite IHargs; reflexivity]). rewrite Es. exact S. }
  exists g. split; auto. split; auto. rewrite V. split.
  { destruct args; cbn [map fold_right]; [lia|apply Z.lcm_nonneg]. }
  split. - intros x H. apply lcm_list_div. now apply in_map. - intros d H. apply lcm_list_least. intros z Hz. apply in_map_iff in Hz. destruct Hz as (x & <- & Hx). auto.
Qed.
(** expt: the exponent is not negative; x^y fits a bignum *)
Theorem int_expt_partial : forall x y, canonical x -> canonical y -> 0 <= int_of y -> (int_of y < 2 ^ 61 \/ int_of x = 1 \/ int_of x = -1) -> (int_of x = 2 -> int_of y < 268435456) ->
  Z.abs (int_of x ^ int_of y) < LIM -> returns (num_expt x y) (int_of x ^ int_of y).
Proof. exact num_expt_ok. Qed.
Theorem int_expt_zero_refuted : exists y, canonical y /\ 0 < int_of y /\ num_expt (Fix 0) y = Err.
Proof. exists big_2_128m1. split; [apply C07_ex_canonical|]. split; reflexivity. Qed.
(** exact-integer-sqrt: from any positive first guess the iteration ends with the root *)
Theorem int_sqrt : forall k guess, canonical k -> canonical guess -> 0 < int_of k -> 0 < int_of guess -> nwords k <= 2 ^ 28 -> nwords guess <= 2 ^ 28 ->
  exists fuel s r, isqrt_loop fuel k guess = Ok (s, r) /\ canonical s /\ canonical r /\ 0 <= int_of s
    /\ int_of k = int_of s * int_of s + int_of r /\ 0 <= int_of r /\ int_of k < (int_of s + 1) * (int_of s + 1).
Proof.
  intros k g Ck Cg Pk Pg Nk Ng. destruct (isqrt_total k g Ck Cg Pk Pg Nk Ng) as (f & r & d & E & Cr & Cd & Vr & Vd). exists f, r, d. split; auto. split; auto. split; auto.
  pose proof (Z.sqrt_spec (int_of k) ltac:(lia)) as S. cbv zeta in S. pose proof (Z.sqrt_nonneg (int_of k)). rewrite Vr in *. split; [lia|]. split; [lia|]. split; [lia|]. rewrite <- Z.add_1_r in S. lia.
Qed.
Example C11_ex1 : scheme_gcd [Bn (Big 1 [0; 6]); Fix (-9)] = Ok (Fix 3) /\ scheme_lcm [Fix 4; Fix (-6)] = Ok (Fix 12). Proof. split; vm_compute; reflexivity. Qed.
Example C11_ex2 : num_expt (Fix (-3)) (Fix 41) = Ok (Bn (Big (-1) [18026252303461234787; 1])). Proof. vm_compute. reflexivity. Qed.
Example C11_ex3 : isqrt_loop 200 (Bn (Big 1 [5; 7; 1])) (Fix 1) = Ok (Bn (Big 1 [3; 1]), Bn (Big 1 [18446744073709551612])). Proof. vm_compute. reflexivity. Qed.

(** * C31: bitwise operations are those of infinite two's complement *)
Theorem int_lognot : forall x, canonical x -> nwords x < MAX_DIGITS -> returns (num_lognot x) (- int_of x - 1).
Proof. intros x C H. replace (- int_of x - 1) with (Z.lnot (int_of x)) by (unfold Z.lnot; lia). now apply num_lognot_ok. Qed.
Theorem int_logior : forall x y, canonical x -> canonical y -> exists z, num_logior x y = Ok z /\ canonical z /\ forall i, 0 <= i -> Z.testbit (int_of z) i = Z.testbit (int_of x) i || Z.testbit (int_of y) i.
Proof. intros x y Cx Cy. destruct (num_logior_ok x y Cx Cy) as (z & E & C & V). exists z. split; auto. split; auto. intros. rewrite V. apply Z.lor_spec. Qed.
(** logand, except when both are negative and the result is -2^(64k) *)
Theorem int_logand_partial : forall x y, canonical x -> canonical y -> Z.land (int_of x) (int_of y) <> - 2 ^ (64 * Z.max (nwords x) (nwords y)) ->
  exists z, num_logand x y = Ok z /\ canonical z /\ forall i, 0 <= i -> Z.testbit (int_of z) i = Z.testbit (int_of x) i && Z.testbit (int_of y) i.
Proof. intros x y Cx Cy H. destruct (num_logand_ok x y Cx Cy H) as (z & E & C & V). exists z. split; auto. split; auto. intros. rewrite V. apply Z.land_spec. Qed.
Theorem int_logand_refuted : exists x y, canonical x /\ canonical y /\ Z.land (int_of x) (int_of y) = - 2 ^ 64 /\ num_logand x y = Ok (Fix 0).
Proof.
  exists (Bn (Big (-1) [2 ^ 64 - 1])), (Bn (Big (-1) [2 ^ 64 - 2])).
  assert (G : forall w, (w = 2 ^ 64 - 1 \/ w = 2 ^ 64 - 2) -> canonical (Bn (Big (-1) [w]))). { intros w Hw. split; [right; reflexivity|]. split; [constructor; [destruct Hw; subst w; split; vm_compute; (discriminate || reflexivity)|constructor]|]. split; [destruct Hw; subst w; vm_compute; discriminate|]. intros (H & _). destruct Hw; subst w; vm_compute in H; contradiction. }
  split; [apply G; auto|]. split; [apply G; auto|]. split; vm_compute; reflexivity.
Qed.
Theorem int_logxor_partial : forall x y, canonical x -> canonical y -> nwords x + 1 < MAX_DIGITS -> nwords y + 1 < MAX_DIGITS ->
  (forall k, 1 <= k -> Z.land (int_of x) (int_of y) <> - 2 ^ (64 * k) /\ Z.lxor (int_of x) (int_of y) <> - 2 ^ (64 * k)) ->
  exists z, num_logxor x y = Ok z /\ canonical z /\ forall i, 0 <= i -> Z.testbit (int_of z) i = xorb (Z.testbit (int_of x) i) (Z.testbit (int_of y) i).
Proof. intros x y Cx Cy Hx Hy H. destruct (num_logxor_ok x y Cx Cy Hx Hy H) as (z & E & C & V). exists z. split; auto. split; auto. intros. rewrite V. apply Z.lxor_spec. Qed.
(** ash multiplies by 2^cnt, rounding down *)
Theorem int_ash_partial : forall x cnt, canonical x -> - 2 ^ 28 < cnt < 2 ^ 28 -> nwords x + 1 < MAX_DIGITS -> (0 < cnt -> nwords x + (cnt + 63) / 64 <= MAX_DIGITS) ->
  ~ (cnt = 0 /\ (int_of x = 2 ^ 61 - 1 \/ int_of x = - 2 ^ 61 \/ int_of x = - 2 ^ 61 + 1)) -> ~ (int_of x = - 2 ^ 61 - 1 /\ cnt = -61) ->
  returns (num_ash x cnt) (if 0 <=? cnt then int_of x * 2 ^ cnt else int_of x / 2 ^ (- cnt)).
Proof.
  intros x cnt C H1 H2 H3 H4 H5. change (2 ^ 28) with 268435456 in H1. replace (if 0 <=? cnt then _ else _) with (Z.shiftl (int_of x) cnt).
  - apply num_ash_ok; [exact C|lia|exact H2|exact H3|exact H4|]. intros _. split; [lia|]. split; [lia|]. exact H5.
  - destruct (Z.leb_spec 0 cnt); [apply Z.shiftl_mul_pow2; auto|]. rewrite <- (Z.opp_involutive cnt) at 1. rewrite Z.shiftl_opp_r. apply Z.shiftr_div_pow2. lia.
Qed.
Theorem int_ash_right_refuted : exists x, canonical x /\ int_of x / 2 ^ 61 = -2 /\ num_ash x (-61) = Ok (Fix (-1)).
Proof. exists (Bn (Big (-1) [2 ^ 61 + 1])). split. { split; [right; reflexivity|]. split; [constructor; [split; [discriminate|reflexivity]|constructor]|]. split; [discriminate|]. intros (H & _). vm_compute in H. contradiction. } split; vm_compute; reflexivity. Qed.
(** a shift count is truncated to 32 bits when the operand is a bignum *)
Theorem int_ash_count_truncated_refuted : exists x, canonical x /\ int_of x / 2 ^ (2 ^ 32) = 0 /\ num_ash x (- 2 ^ 32) = Ok x.
Proof.
  exists (Bn (Big 1 [0; 0; 1])). split. { split; [left; reflexivity|]. split; [repeat constructor; discriminate|]. split; [discriminate|]. intros (_ & H). vm_compute in H. discriminate. }
  split; [|vm_compute; reflexivity]. apply Z.div_small. split; [discriminate|]. apply Z.lt_le_trans with (2 ^ 200); [reflexivity|]. apply Z.pow_le_mono_r; [lia|discriminate].
Qed.
(** integer-length: the number of bits of the shortest two's complement representation *)
Theorem int_integer_length : forall x, canonical x -> nwords x < MAX_DIGITS ->
  exists n, integer_length x = Ok n /\ 0 <= n /\ - 2 ^ n <= int_of x < 2 ^ n /\ forall m, 0 <= m < n -> ~ (- 2 ^ m <= int_of x < 2 ^ m).
Proof. exact integer_length_ok. Qed.
Example C31_ex1 : num_logand (Bn (Big (-1) [2 ^ 62; 5])) (Bn (Big 1 [1; 2 ^ 64 - 1])) = Ok (Bn (Big 1 [0; 2 ^ 64 - 6])) . Proof. vm_compute. reflexivity. Qed.
Example C31_ex2 : num_ash (Bn (Big (-1) [1; 2])) (-1) = Ok (Bn (Big (-1) [1; 1])). Proof. vm_compute. reflexivity. Qed.
Example C31_ex3 : integer_length (Bn (Big (-1) [0; 1])) = Ok 64. Proof. vm_compute. reflexivity. Qed.

Print Assumptions int_add_exact.
Print Assumptions int_sub_exact.
Print Assumptions int_mul_exact.
Print Assumptions int_negate_exact.
Print Assumptions int_abs_exact.
Print Assumptions int_compare_exact.
Print Assumptions int_sign_exact.
Print Assumptions int_odd_exact.
Print Assumptions int_quotient_remainder_partial.
Print Assumptions int_quotient_least_fixnum_refuted.
Print Assumptions int_quotient_fix_by_big_refuted.
Print Assumptions int_quotient_big_by_zero_refuted.
Print Assumptions int_quotient_fix_by_zero.
Print Assumptions int_remainder_partial.
Print Assumptions int_modulo.
Print Assumptions int_canonical_unique.
Print Assumptions int_canonical_fixnum_iff.
Print Assumptions int_normalize_canonical.
Print Assumptions int_make_integer_canonical.
Print Assumptions int_ash_noncanonical_refuted.
Print Assumptions int_to_string.
Print Assumptions int_of_string.
Print Assumptions int_text_roundtrip_partial.
Print Assumptions int_text_roundtrip_refuted.
Print Assumptions int_gcd.
Print Assumptions int_lcm.
Print Assumptions int_expt_partial.
Print Assumptions int_expt_zero_refuted.
Print Assumptions int_sqrt.
Print Assumptions int_lognot.
Print Assumptions int_logior.
Print Assumptions int_logand_partial.
Print Assumptions int_logand_refuted.
Print Assumptions int_logxor_partial.
Print Assumptions int_ash_partial.
Print Assumptions int_ash_right_refuted.
Print Assumptions int_ash_count_truncated_refuted.
Print Assumptions int_integer_length.
