(** number->string and string->number. *)
From Coq Require Import List Bool ZArith Lia.
From Verif Require Import Outcome BignumModel IntSpec IntModel IntTextModel IntTextSpec BignumProofs BignumProofs2 BignumProofs3 BignumProofs5 IntProofs IntProofs2 IntProofs4 IntProofs5.
Import ListNotations.
Local Open Scope Z_scope.
Ltac Zify.zify_post_hook ::= idtac.

(** canonical objects are determined by their integers *)
Lemma value_inj : forall xs ys, Forall word xs -> Forall word ys -> length xs = length ys -> value xs = value ys -> xs = ys.
Proof.
  induction xs as [|x t IH]; destruct ys as [|y u]; intros Fx Fy L V; cbn [length] in L; try lia; auto. inversion Fx; inversion Fy; subst. rewrite !value_cons in V. unfold word in *.
  assert (x = y /\ value t = value u). { pose proof (Z.div_mod_unique W (value t) (value u) x y). intuition lia. } destruct H as [-> E]. f_equal. apply IH; auto.
Qed.
Lemma canonical_unique : forall x y, canonical x -> canonical y -> int_of x = int_of y -> x = y.
Proof.
  intros [v|b] [w|c] Cx Cy E.
  - cbn [int_of] in E. congruence.
  - apply can_fix in Cx. destruct (big_val c Cy) as (A & B & _). change (int_of (Bn c)) with (bval c) in E. cbn [int_of] in E. lia.
  - apply can_fix in Cy. destruct (big_val b Cx) as (A & B & _). change (int_of (Bn b)) with (bval b) in E. cbn [int_of] in E. lia.
  - destruct (big_val b Cx) as (_ & _ & S & V & V2). destruct (big_val c Cy) as (_ & _ & S' & V' & V2'). change (bval b = bval c) in E. destruct (canonical_wfb b Cx) as ((_ & F & N) & L & _). destruct (canonical_wfb c Cy) as ((_ & F' & N') & L' & _).
    assert (sign b = sign c /\ value (words b) = value (words c)) as [Es Ev] by (rewrite V, V' in E; destruct S as [S|S], S' as [S'|S']; rewrite S, S' in *; lia).
    assert (El : length (words b) = length (words c)). { destruct (Nat.lt_trichotomy (length (words b)) (length (words c))) as [H|[H|H]]; auto; [pose proof (value_len_lt _ _ F F' L' H)|pose proof (value_len_lt _ _ F' F L H)]; lia. }
    f_equal. destruct b as [sb wb], c as [sc wc]. cbn [sign words] in *. f_equal; auto. now apply value_inj.
Qed.

(** digits *)
Lemma digit_of_char : forall up d, 0 <= d < 36 -> digit_of (digit_char up d) = Some d.
Proof.
  intros up d H. unfold digit_char, digit_of. destruct (Z.ltb_spec d 10). { rewrite (proj2 (Z.leb_le 48 _)), (proj2 (Z.leb_le _ 57)) by lia. cbn [andb]. f_equal. lia. }
  destruct up.
  - rewrite (proj2 (Z.leb_gt _ 57)) by lia. rewrite andb_false_r. rewrite (proj2 (Z.leb_gt 97 _)) by lia. cbn [andb]. rewrite (proj2 (Z.leb_le 65 _)), (proj2 (Z.leb_le _ 90)) by lia. cbn [andb]. f_equal. lia.
  - rewrite (proj2 (Z.leb_gt _ 57)) by lia. rewrite andb_false_r. rewrite (proj2 (Z.leb_le 97 _)), (proj2 (Z.leb_le _ 122)) by lia. cbn [andb]. f_equal. lia.
Qed.
Lemma char_is_digit : forall r up d, r <= 36 -> 0 <= d < r -> is_digit r (digit_char up d).
Proof. intros. exists d. split; [apply digit_of_char; lia|lia]. Qed.
Lemma char_zero : forall up d, 0 <= d < 36 -> digit_char up d = 48 -> d = 0.
Proof. intros up d H. unfold digit_char. destruct (Z.ltb_spec d 10); [lia|]. destruct up; lia. Qed.
Lemma numeral_snoc : forall r s c, numeral_value r (s ++ [c]) = numeral_value r s * r + match digit_of c with Some d => d | None => 0 end.
Proof. intros. unfold numeral_value. rewrite fold_left_app. reflexivity. Qed.
(** digits of v, most significant first, put in front of acc *)
Definition digits_for (r v : Z) (ds : list Z) : Prop := Forall (is_digit r) ds /\ numeral_value r ds = v /\ (v = 0 -> ds = []) /\ (0 < v -> ds <> [] /\ hd 0 ds <> 48).
Lemma digits_for_step : forall r up v ds, 2 <= r <= 36 -> 0 < v -> digits_for r (v / r) ds -> digits_for r v (ds ++ [digit_char up (v mod r)]).
Proof.
  intros r up v ds Hr Hv (A & B & C & D). pose proof (Z.mod_pos_bound v r ltac:(lia)) as M. pose proof (Z.div_mod v r ltac:(lia)) as E. split; [|split; [|split]].
  - apply Forall_app. split; auto. constructor; auto. apply char_is_digit; lia.
  - rewrite numeral_snoc, digit_of_char by lia. lia.
  - lia.
  - intros _. split. { destruct ds; discriminate. } destruct (Z.eq_dec (v / r) 0) as [Z0|Z0].
    + rewrite (C Z0). cbn [app hd]. intros K. apply char_zero in K; [|lia]. rewrite Z0 in E. lia.
    + destruct D as [D1 D2]. { assert (0 <= v / r) by (apply Z.div_pos; lia). lia. } destruct ds; [contradiction|]. exact D2.
Qed.
Lemma fix_digits_ok : forall n up r v acc, 2 <= r <= 36 -> 0 <= v < r ^ Z.of_nat n -> exists ds, fix_digits n up r v acc = ds ++ acc /\ digits_for r v ds.
Proof.
  assert (D0 : forall r, digits_for r 0 []) by (intros; unfold digits_for; repeat split; auto; lia).
  induction n; intros up r v acc Hr Hv; cbn [fix_digits].
  - change (r ^ Z.of_nat 0) with 1 in Hv. assert (v = 0) by lia. subst. exists []. auto.
  - rewrite Nat2Z.inj_succ, Z.pow_succ_r in Hv by lia. destruct (Z.ltb_spec 0 v). 2: { assert (v = 0) by lia. subst. exists []. auto. }
    rewrite Z.quot_div_nonneg, Z.rem_mod_nonneg by lia. destruct (IHn up r (v / r) (digit_char up (v mod r) :: acc) Hr) as (ds & -> & D). { split; [apply Z.div_pos; lia|]. apply Z.div_lt_upper_bound; lia. }
    exists (ds ++ [digit_char up (v mod r)]). split; [now rewrite <- app_assoc|]. now apply digits_for_step.
Qed.
Lemma drop_zeros_ok : forall l, value (rev (drop_zeros l)) = value (rev l) /\ (drop_zeros l = [] \/ hd 0 (drop_zeros l) <> 0) /\ (Forall word l -> Forall word (drop_zeros l)).
Proof.
  induction l as [|w t IH]; cbn [drop_zeros]; [repeat split; auto|]. destruct (Z.eqb_spec w 0) as [->|N].
  - destruct IH as (A & B & C). split; [|split]; auto. { rewrite A. cbn [rev]. rewrite value_snoc. lia. } intros F. inversion F; auto.
  - split; [|split]; auto. 
Qed.
Lemma trim_ok : forall ws, Forall word ws -> value (trim ws) = value ws /\ (trim ws = [] \/ last (trim ws) 0 <> 0) /\ Forall word (trim ws).
Proof.
  intros ws F. unfold trim. destruct (drop_zeros_ok (rev ws)) as (A & B & C). rewrite rev_involutive in A. split; auto. split.
  - destruct (drop_zeros (rev ws)) as [|w t]; [left; reflexivity|right]. destruct B as [B|B]; [discriminate|]. cbn [rev]. rewrite last_last. exact B.
  - apply Forall_rev, C, Forall_rev, F.
Qed.
Lemma big_digits_cons : forall f up r w t acc, big_digits (S f) up r (w :: t) acc = (do p <- sdiv (w :: t) r; if (0 <=? slong (snd p)) && (slong (snd p) <? r) then big_digits f up r (trim (fst p)) (digit_char up (slong (snd p)) :: acc) else Panic).
Proof. reflexivity. Qed.
Lemma big_digits_nil : forall f up r acc, big_digits (S f) up r [] acc = Ok acc.
Proof. reflexivity. Qed.
Lemma big_digits_ok : forall n up r q acc, 2 <= r <= 36 -> Forall word q -> (q = [] \/ last q 0 <> 0) -> value q < r ^ Z.of_nat n -> exists ds, big_digits (S n) up r q acc = Ok (ds ++ acc) /\ digits_for r (value q) ds.
Proof.
  assert (D0 : forall r, digits_for r 0 []) by (intros; unfold digits_for; repeat split; auto; lia).
  assert (P : forall q, Forall word q -> q <> [] -> last q 0 <> 0 -> 0 < value q). { intros q F N L. pose proof (nonzero_top_big q F N L). pose proof (Wpow_pos (length q - 1)). lia. }
  induction n; intros up r q acc Hr F T V.
  - change (r ^ Z.of_nat 0) with 1 in V. destruct q as [|w t]; [exists []; cbn [value]; auto|]. exfalso. destruct T as [T|T]; [discriminate|]. pose proof (P (w :: t) F ltac:(discriminate) T). lia.
  - destruct q as [|w t]; [exists []; cbn [value]; auto|]. destruct T as [T|T]; [discriminate|]. pose proof (P (w :: t) F ltac:(discriminate) T) as Pq. rewrite big_digits_cons. set (q := w :: t) in *. rewrite Nat2Z.inj_succ, Z.pow_succ_r in V by lia.
    destruct (sdiv_ok q r F ltac:(discriminate) ltac:(pose proof HW_big; lia)) as (q1 & -> & F1 & L1 & V1). cbn [bind fst snd]. pose proof (Z.mod_pos_bound (value q) r ltac:(lia)) as M.
    assert (S : slong (value q mod r) = value q mod r) by (unfold slong; rewrite Z.mod_small by (pose proof W_big; lia); lia). rewrite S. rewrite (proj2 (Z.leb_le 0 _)), (proj2 (Z.ltb_lt _ r)) by lia. cbn [andb].
    destruct (trim_ok q1 F1) as (A & B & C). destruct (IHn up r (trim q1) (digit_char up (value q mod r) :: acc) Hr C B) as (ds & E & D). { rewrite A, V1. apply Z.div_lt_upper_bound; lia. }
    rewrite E.
    exists (ds ++ [digit_char up (value q mod r)]). split; [now rewrite <- app_assoc|]. rewrite A, V1 in D. now apply digits_for_step.
Qed.

Definition sign_of (x : num) (plus : bool) : list Z := if int_of x <? 0 then [45] else if plus then [43] else [].
Lemma number_to_string_ok : forall x r up plus, canonical x -> 2 <= r <= 36 ->
  exists ds, number_to_string x r up plus = Ok (sign_of x plus ++ ds) /\ numeral r ds /\ numeral_value r ds = Z.abs (int_of x) /\ no_leading_zero ds.
Proof.
  intros x r up plus C Hr. unfold number_to_string. rewrite (proj2 (Z.ltb_ge r 2)), (proj2 (Z.ltb_ge 36 r)) by lia. cbn [orb].
  destruct x as [v|b].
  - apply can_fix in C. unfold fix_to_string, sign_of. cbn [int_of]. set (a := if v <? 0 then - v else v). assert (Ea : a = Z.abs v) by (unfold a; destruct (Z.ltb_spec v 0); lia). rewrite Ea.
    destruct (Z.eqb_spec (Z.abs v) 0) as [E|N].
    + exists [48]. assert (v = 0) by lia. subst v. split; auto. split; [|split; [reflexivity|left; reflexivity]]. split; [discriminate|]. constructor; auto. exists 0. split; [reflexivity|lia].
    + destruct (fix_digits_ok 65 up r (Z.abs v) [] Hr) as (ds & -> & A & B & _ & D). { split; [lia|]. apply Z.lt_le_trans with (2 ^ 65); [change (2 ^ 65) with 36893488147419103232; lia|]. apply Z.pow_le_mono_l. lia. }
      rewrite app_nil_r. destruct D as [D1 D2]; [lia|]. exists ds. split; auto. split; [split; auto|]. split; auto. right; auto.
  - destruct (big_val b C) as (_ & _ & S & V & V2). destruct (canonical_wfb b C) as ((_ & F & N) & L & _). unfold bignum_to_string. rewrite (proj2 (Z.ltb_ge r 2)), (proj2 (Z.ltb_ge 36 r)) by lia. cbn [orb].
    replace (64 * length (words b) + 1)%nat with (Datatypes.S (64 * length (words b))) by lia.
    destruct (big_digits_ok (64 * length (words b)) up r (words b) [] Hr F ltac:(auto)) as (ds & -> & A & B & _ & D). { pose proof (value_bound _ F) as Bd. rewrite pow_W in Bd by lia. rewrite Nat2Z.inj_mul. change (Z.of_nat 64) with 64. assert (2 ^ (64 * Z.of_nat (length (words b))) <= r ^ (64 * Z.of_nat (length (words b)))) by (apply Z.pow_le_mono_l; lia). lia. }
    cbn [bind]. rewrite app_nil_r. destruct D as [D1 D2]; [lia|]. rewrite num_sign_ok by auto. unfold sign_of. change (int_of (Bn b)) with (bval b) in *. exists ds. split.
    + f_equal. destruct S as [S|S]; rewrite S in *.
      * change (1 <? 0) with false. cbn match. rewrite (proj2 (Z.ltb_ge (bval b) 0)) by lia. rewrite (proj2 (Z.leb_le 0 (Z.sgn (bval b)))) by lia. rewrite andb_true_r. destruct plus; reflexivity.
      * change (-1 <? 0) with true. cbn match. rewrite (proj2 (Z.ltb_lt (bval b) 0)) by lia. rewrite (proj2 (Z.leb_gt 0 (Z.sgn (bval b)))) by lia. rewrite andb_false_r. reflexivity.
    + split; [split; auto|]. split; [|right; auto]. rewrite B, V. destruct S as [-> | ->]; lia.
Qed.

(** reading *)
Lemma bigdig_ok : forall r, 2 <= r <= 36 -> exists i, 0 <= i /\ bigdig r = (i, r ^ (i + 1)) /\ r ^ (i + 1) < W.
Proof.
  intros r Hr. assert (K : forallb (fun r => let '(i, n) := bigdig r in (0 <=? i) && (n =? r ^ (i + 1)) && (n <? W)) (map Z.of_nat (seq 2 35)) = true) by (vm_compute; reflexivity).
  rewrite forallb_forall in K. assert (Hin : In r (map Z.of_nat (seq 2 35))). { apply in_map_iff. exists (Z.to_nat r). split; [lia|]. apply in_seq. lia. }
  specialize (K r Hin). destruct (bigdig r) as [i n]. apply andb_true_iff in K. destruct K as [K K3]. apply andb_true_iff in K. destruct K as [K1 K2]. apply Z.leb_le in K1. apply Z.eqb_eq in K2. apply Z.ltb_lt in K3. subst n. exists i. auto.
Qed.
Lemma ipow_ok : forall n r k, 1 <= r -> 0 <= k -> k * r ^ Z.of_nat n < W -> ipow r n k = k * r ^ Z.of_nat n.
Proof.
  induction n; intros r k Hr Hk B; cbn [ipow]. { change (r ^ Z.of_nat 0) with 1. lia. } rewrite Nat2Z.inj_succ, Z.pow_succ_r in * by lia. assert (1 <= r ^ Z.of_nat n) by (assert (0 < r ^ Z.of_nat n) by (apply Z.pow_pos_nonneg; lia); lia).
  assert (Kr : 0 <= k * r) by (apply Z.mul_nonneg_nonneg; lia). assert (k * r * 1 <= k * r * r ^ Z.of_nat n) by (apply Z.mul_le_mono_nonneg_l; lia). rewrite uwrap_small by lia. rewrite IHn by lia. lia.
Qed.
Lemma pow_lt_gen : forall M n v, W ^ n <= v -> v < W ^ M -> 0 <= M -> n < M.
Proof. intros M n v H1 H2 HM. destruct (Z.ltb_spec n M); auto. exfalso. assert (W ^ M <= W ^ n) by (apply Z.pow_le_mono_r; [pose proof W_pos|]; lia). lia. Qed.
Definition RLIM : Z := W ^ (MAX_DIGITS - 8).
Lemma RLIM_eq : RLIM = W ^ (MAX_DIGITS - 8). Proof. reflexivity. Qed.
Opaque RLIM.
Lemma rlim_len : forall n v, W ^ n <= v -> v < RLIM -> n < MAX_DIGITS - 8.
Proof. intros n v H1 H2. rewrite RLIM_eq in H2. apply (pow_lt_gen (MAX_DIGITS - 8) n v H1 H2). discriminate. Qed.
Lemma acc_mult_add_ok : forall acc k c, Forall word acc -> acc <> [] -> word k -> word c -> value acc * k + c < RLIM ->
  exists r, acc_mult_add acc k c = Ok r /\ Forall word r /\ r <> [] /\ value r = value acc * k + c.
Proof.
  intros acc k c F N Wk Wc B. unfold acc_mult_add. pose proof (nonnil_len _ N) as Ln.
  assert (Vc : value (c :: repeat 0 (length acc)) = c) by (rewrite value_cons, value_repeat0; lia). pose proof (value_bound acc F) as Bd.
  destruct (mul_word_ok acc (c :: repeat 0 (length acc)) k 0 F) as (r & -> & Lr & Fr & Vr).
  { constructor; auto using Forall_repeat0. } { auto. } { cbn [length]. rewrite repeat_length. lia. }
  { cbn [length]. rewrite Vc, repeat_length. change (Z.of_nat 0) with 0. rewrite Z.pow_0_r, Z.mul_1_r, Wpow_S. unfold word in *. assert (value acc * k <= (W ^ Z.of_nat (length acc) - 1) * (W - 1)) by (apply Z.mul_le_mono_nonneg; lia). lia. }
  rewrite Vc in Vr. change (Z.of_nat 0) with 0 in Vr. rewrite Z.pow_0_r, Z.mul_1_r in Vr. cbn [length] in Lr. rewrite repeat_length in Lr. cbn [bind].
  assert (Nr : r <> []) by (destruct r; [discriminate Lr|discriminate]).
  destruct (Z.eqb_spec (last r 0) 0) as [E|E].
  - exists (firstn (length acc) r). split; auto. assert (Er : r = firstn (length acc) r ++ [last r 0]). { rewrite (app_removelast_last 0 Nr) at 1. f_equal. rewrite removelast_firstn_len, Lr. reflexivity. }
    assert (Lf : length (firstn (length acc) r) = length acc) by (rewrite firstn_length; lia). split; [|split].
    + rewrite Er in Fr. apply Forall_app in Fr. apply Fr.
    + destruct (firstn (length acc) r); [cbn [length] in Lf; lia|discriminate].
    + rewrite Er, value_snoc, E in Vr. lia.
  - pose proof (nonzero_top_big r Fr Nr E) as T. rewrite Lr in T. replace (Datatypes.S (length acc) - 1)%nat with (length acc) in T by lia.
    pose proof (rlim_len _ _ T ltac:(rewrite Vr, Z.add_comm; exact B)) as Ll. clear B T.
    rewrite make_bignum_ok by lia. cbn [bind]. eexists. split; [reflexivity|]. split; [|split].
    + apply Forall_app. split; auto. pose proof (Forall_repeat0 (S (length acc) + 3)) as F0. rewrite <- (firstn_skipn (S (length acc)) (repeat 0 _)) in F0. apply Forall_app in F0. apply F0.
    + destruct r; discriminate.
    + rewrite value_app. assert (E0 : value (skipn (S (length acc)) (repeat 0 (S (length acc) + 3))) = 0). { assert (Sk : forall n m, skipn n (repeat 0 m) = repeat 0 (m - n)) by (induction n; destruct m; cbn [skipn repeat Nat.sub]; auto). rewrite Sk. apply value_repeat0. } rewrite E0. lia.
Qed.
Definition rep (r limit vi digits : Z) (vb : option (list Z)) (V : Z) : Prop :=
  match vb with
  | None => vi = V /\ 0 <= V <= limit
  | Some acc => Forall word acc /\ acc <> [] /\ 0 <= digits <= fst (bigdig r) /\ 0 <= vi < r ^ digits /\ V = value acc * r ^ digits + vi
  end.
Definition limit_ok (r limit : Z) : Prop := 0 <= limit <= 9223372036854775808 / r + 2048.
Lemma digit_val_ok : forall r c d, r <= 36 -> digit_of c = Some d -> d < r -> digit_val r (tolower c) = Some d /\ 0 <= d /\ tolower c <> 95 /\ tolower c <> 35.
Proof.
  intros r c d Hr H L. unfold digit_of in H. unfold tolower, digit_val.
  destruct (Z.leb_spec 48 c), (Z.leb_spec c 57); cbn [andb] in H.
  { injection H as <-. rewrite (proj2 (Z.leb_gt 65 c)) by lia. cbn [andb]. rewrite (proj2 (Z.leb_le 48 c)), (proj2 (Z.leb_le c 57)) by lia. cbn [andb]. rewrite (proj2 (Z.ltb_lt _ _)) by lia. repeat split; auto; lia. }
  all: destruct (Z.leb_spec 97 c), (Z.leb_spec c 122); cbn [andb] in H; try lia;
    try (injection H as <-; rewrite (proj2 (Z.leb_gt c 90)) by lia; rewrite andb_false_r; rewrite (proj2 (Z.leb_gt c 57)) by lia; rewrite andb_false_r; rewrite (proj2 (Z.leb_le 97 c)), (proj2 (Z.leb_le c 122)) by lia; cbn [andb]; replace (c - 87) with (c - 97 + 10) by lia; rewrite (proj2 (Z.ltb_lt _ _)) by lia; repeat split; auto; lia);
    destruct (Z.leb_spec 65 c), (Z.leb_spec c 90); cbn [andb] in H; try discriminate; try lia;
    injection H as <-; cbn [andb]; rewrite (proj2 (Z.leb_gt (c + 32) 57)) by lia; rewrite andb_false_r; rewrite (proj2 (Z.leb_le 97 (c + 32))), (proj2 (Z.leb_le (c + 32) 122)) by lia; cbn [andb]; replace (c + 32 - 87) with (c - 65 + 10) by lia; rewrite (proj2 (Z.ltb_lt _ _)) by lia; repeat split; auto; lia.
Qed.
Lemma div_bound_r : forall r, 2 <= r <= 36 -> 0 <= 9223372036854775808 / r <= 4611686018427387904 /\ r * (9223372036854775808 / r) <= 9223372036854775808.
Proof. intros r Hr. split; [split|]. - apply Z.div_pos; lia. - apply Z.div_le_upper_bound; lia. - apply Z.mul_div_le. lia. Qed.
Lemma ru_loop_ok : forall s r limit moved digread vi digits vb V, 2 <= r <= 36 -> limit_ok r limit -> Forall (is_digit r) s -> rep r limit vi digits vb V -> 0 <= V ->
  fold_left (fun a c => a * r + match digit_of c with Some d => d | None => 0 end) s V < RLIM ->
  exists vi1 digits1 vb1, ru_loop r limit moved digread false vi digits vb s = Ok (RuEnd [] false (match s with [] => moved | _ => true end) false vi1 digits1 vb1)
   /\ rep r limit vi1 digits1 vb1 (fold_left (fun a c => a * r + match digit_of c with Some d => d | None => 0 end) s V).
Proof.
  induction s as [|c t IH]; intros r limit moved digread vi digits vb V Hr Hl F R PV B; cbn [ru_loop fold_left].
  { exists vi, digits, vb. auto. }
  inversion F as [|? ? (d & Hd & Ld) F']; subst. destruct (digit_val_ok r c d ltac:(lia) Hd Ld) as (Dv & D0 & N1 & N2). rewrite (proj2 (Z.eqb_neq _ 95)), (proj2 (Z.eqb_neq _ 35)) by auto. rewrite andb_false_r, Dv. cbn [fold_left] in B. rewrite Hd in *.
  destruct (bigdig_ok r Hr) as (i & Hi & Eb & Lb). rewrite Eb in *. cbn [fst snd].
  assert (PV1 : 0 <= V * r + d) by (assert (0 <= V * r) by (apply Z.mul_nonneg_nonneg; lia); lia).
  assert (Mono : forall s V, 0 <= V -> V <= fold_left (fun a c => a * r + match digit_of c with Some d => d | None => 0 end) s V).
  { clear - Hr. induction s as [|c t IH]; intros V HV; cbn [fold_left]; [lia|]. set (e := match digit_of c with Some d => d | None => 0 end). assert (0 <= e). { unfold e, digit_of. destruct (Z.leb_spec 48 c), (Z.leb_spec c 57), (Z.leb_spec 97 c), (Z.leb_spec c 122), (Z.leb_spec 65 c), (Z.leb_spec c 90); cbn [andb]; lia. }
    assert (V * 1 <= V * r) by (apply Z.mul_le_mono_nonneg_l; lia). specialize (IH (V * r + e) ltac:(lia)). lia. }
  assert (Next : forall vi2 digits2 vb2, rep r limit vi2 digits2 vb2 (V * r + d) -> exists vi1 digits1 vb1, ru_loop r limit true true false vi2 digits2 vb2 t = Ok (RuEnd [] false true false vi1 digits1 vb1) /\ rep r limit vi1 digits1 vb1 (fold_left (fun a c => a * r + match digit_of c with Some d => d | None => 0 end) t (V * r + d))).
  { intros vi2 digits2 vb2 R2. destruct (IH r limit true true vi2 digits2 vb2 (V * r + d) Hr Hl F' R2 PV1 B) as (a & b & e & E & R3). exists a, b, e. split; auto. rewrite E. destruct t; reflexivity. }
  pose proof (div_bound_r r Hr) as (Db1 & Db2). unfold limit_ok in Hl. destruct vb as [acc|]; cbn [rep] in R.
  - destruct R as (Fa & Na & Hdg & Hvi & EV). rewrite Eb in Hdg. cbn [fst] in Hdg.
    assert (Pd : r ^ (digits + 1) <= r ^ (i + 1)) by (apply Z.pow_le_mono_r; lia). assert (Es : r ^ (digits + 1) = r ^ digits * r) by (rewrite Z.pow_add_r, Z.pow_1_r by lia; reflexivity).
    assert (Bvi : 0 <= vi * r + d < r ^ (digits + 1)). { assert (0 <= vi * r) by (apply Z.mul_nonneg_nonneg; lia). assert (vi * r <= (r ^ digits - 1) * r) by (apply Z.mul_le_mono_nonneg_r; lia). lia. }
    rewrite uwrap_small by lia. assert (EV1 : V * r + d = value acc * r ^ (digits + 1) + (vi * r + d)) by (rewrite Es, EV; ring).
    destruct (Z.ltb_spec i (digits + 1)).
    + assert (digits = i) by lia. subst digits. destruct (acc_mult_add_ok acc (r ^ (i + 1)) (vi * r + d) Fa Na) as (acc1 & -> & F1 & N1' & V1). { unfold word. lia. } { unfold word. lia. } { rewrite <- EV1. specialize (Mono t (V * r + d) PV1). lia. }
      cbn [bind]. apply Next. cbn [rep]. rewrite Eb. cbn [fst]. split; auto. split; auto. split; [lia|]. change (r ^ 0) with 1. split; lia.
    + apply Next. cbn [rep]. rewrite Eb. cbn [fst]. split; auto. split; auto. split; [lia|]. split; lia.
  - destruct R as (-> & HV). assert (Bv : V * r + d < W). { assert (V * r <= (9223372036854775808 / r + 2048) * r) by (apply Z.mul_le_mono_nonneg_r; lia). pose proof W_big. lia. } rewrite uwrap_small by lia.
    destruct (Z.leb_spec limit (V * r + d)).
    + change (make_bignum 4) with (Ok [0;0;0;0]). cbn [bind skipn]. apply Next. cbn [rep]. rewrite Eb. cbn [fst]. split. { repeat constructor; unfold word; pose proof W_pos; lia. } split; [discriminate|]. split; [lia|]. change (r ^ 0) with 1. split; [lia|]. cbn [value]. lia.
    + apply Next. cbn [rep]. split; lia.
Qed.
Lemma skip_zeros_ok : forall r s, Forall (is_digit r) s -> Forall (is_digit r) (skip_zeros s) /\ numeral_value r (skip_zeros s) = numeral_value r s.
Proof.
  intros r s. unfold numeral_value. induction s as [|c t IH]; intros F; cbn [skip_zeros]; auto. destruct (Z.eqb_spec c 48) as [->|N]; auto. inversion F; subst. destruct (IH H2) as [A B]. split; auto. 
Qed.
Lemma read_uint_ok : forall s r limit, 2 <= r <= 36 -> limit_ok r limit -> numeral r s -> numeral_value r s < RLIM ->
  exists n, read_uint r limit s = Ok (Some n, [], false) /\ canonical n /\ int_of n = numeral_value r s.
Proof.
  intros s r limit Hr Hl (N & F) B. unfold read_uint. set (z := match s with c :: _ => c =? 48 | [] => false end). set (s1 := if z then skip_zeros s else s).
  assert (F1 : Forall (is_digit r) s1 /\ numeral_value r s1 = numeral_value r s) by (unfold s1; destruct z; auto using skip_zeros_ok). destruct F1 as [F1 V1].
  assert (Nn : 0 <= numeral_value r s). { unfold numeral_value. assert (G : forall l V, 0 <= V -> 0 <= fold_left (fun a c => a * r + match digit_of c with Some d => d | None => 0 end) l V); [|apply G; lia]. clear - Hr. induction l as [|c t IH]; intros V HV; cbn [fold_left]; auto. apply IH. set (e := match digit_of c with Some d => d | None => 0 end). assert (0 <= e). { unfold e, digit_of. destruct (Z.leb_spec 48 c), (Z.leb_spec c 57), (Z.leb_spec 97 c), (Z.leb_spec c 122), (Z.leb_spec 65 c), (Z.leb_spec c 90); cbn [andb]; lia. } assert (0 <= V * r) by (apply Z.mul_nonneg_nonneg; lia). lia. }
  destruct (ru_loop_ok s1 r limit z z 0 0 None 0 Hr Hl F1) as (vi & digits & vb & E & R). { cbn [rep]. unfold limit_ok in Hl. lia. } { lia. } { unfold numeral_value in V1, B. rewrite V1. exact B. }
  change (fold_left _ s1 0) with (numeral_value r s1) in R. rewrite V1 in R. rewrite E. cbn [bind].
  assert (Mv : (match s1 with [] => z | _ => true end) = true). { unfold s1. destruct z eqn:Ez; [now destruct (skip_zeros s)|]. now destruct s. } rewrite Mv. cbn [negb].
  pose proof (div_bound_r r Hr) as (Db1 & Db2). unfold limit_ok in Hl. set (V := numeral_value r s) in *. destruct vb as [acc|]; cbn [rep] in R.
  - destruct R as (Fa & Na & Hdg & Hvi & EV). destruct (bigdig_ok r Hr) as (i & Hi & Eb & Lb). rewrite Eb in Hdg. cbn [fst] in Hdg.
    assert (Fin : forall a, Forall word a -> a <> [] -> value a = V -> exists n, Ok (Some (normalize (Big 1 a)), @nil Z, false) = Ok (Some n, [], false) /\ canonical n /\ int_of n = V).
    { intros a F2 N2 E2. destruct (ret_norm (Big 1 a) V) as (n & En & Cn & Vn). { split; [|split]; auto. } { unfold bval. cbn [sign words]. lia. } injection En as En. rewrite En. eauto. }
    destruct (Z.ltb_spec 0 digits).
    + assert (Pd : r ^ digits <= r ^ (i + 1)) by (apply Z.pow_le_mono_r; lia). rewrite ipow_ok by (rewrite ?Z2Nat.id; lia). rewrite Z2Nat.id, Z.mul_1_l by lia.
      destruct (acc_mult_add_ok acc (r ^ digits) vi Fa Na) as (a1 & -> & F2 & N2 & V2); unfold word; try lia. cbn [bind]. apply Fin; auto. lia.
    + assert (digits = 0) by lia. subst digits. change (r ^ 0) with 1 in *. cbn [bind]. apply Fin; auto. lia.
  - destruct R as (-> & HV). assert (Sv : slong V = V) by (unfold slong; rewrite Z.mod_small by (pose proof W_big; lia); lia). rewrite Sv. destruct (make_integer_ok V) as [Cm Vm]. { unfold LONG_MIN, LONG_MAX. lia. } eauto.
Qed.
Lemma digit_not : forall r c, is_digit r c -> c <> 35 /\ c <> 43 /\ c <> 45 /\ c <> 46.
Proof. intros r c (d & H & _). unfold digit_of in H. destruct (Z.leb_spec 48 c), (Z.leb_spec c 57), (Z.leb_spec 97 c), (Z.leb_spec c 122), (Z.leb_spec 65 c), (Z.leb_spec c 90); cbn [andb] in H; try discriminate; lia. Qed.
Lemma no_special : forall a b c e s r, Forall (is_digit r) s -> starts_nocase [a; b; c; 46; e] s = false.
Proof.
  intros a b c e s r F. destruct s as [|x1 [|x2 [|x3 [|x4 s]]]]; cbn [starts_nocase]; rewrite ?andb_false_r; auto. inversion F as [|? ? _ F1]; subst. inversion F1 as [|? ? _ F2]; subst. inversion F2 as [|? ? _ F3]; subst. inversion F3 as [|? ? H4 _]; subst.
  replace (46 =? tolower x4) with false; [now rewrite !andb_false_r|]. symmetry. apply Z.eqb_neq. destruct (digit_not _ _ H4) as (_ & _ & _ & N). unfold tolower. destruct (Z.leb_spec 65 x4), (Z.leb_spec x4 90); cbn [andb]; lia.
Qed.
Lemma read_number_ok : forall sg ds r limit, 2 <= r <= 36 -> limit_ok r limit -> numeral r ds -> numeral_value r ds < RLIM -> sg = [] \/ ((sg = [43] \/ sg = [45]) /\ ds <> [105] /\ ds <> [73]) ->
  exists n, read_number r limit (sg ++ ds) = Ok (RdNum n) /\ canonical n /\ int_of n = if match sg with [45] => true | _ => false end then - numeral_value r ds else numeral_value r ds.
Proof.
  intros sg ds r limit Hr Hl Hn B Hs. unfold read_number. rewrite (proj2 (Z.ltb_ge r 2)), (proj2 (Z.ltb_ge 36 r)) by lia. cbn [orb]. destruct (read_uint_ok ds r limit Hr Hl Hn B) as (n & E & Cn & Vn). destruct Hn as (N & F). destruct ds as [|c t]; [contradiction|].
  inversion F as [|? ? Hc _]; subst. destruct (digit_not r c Hc) as (M1 & M2 & M3 & M4).
  destruct Hs as [-> | (Hs & X1 & X2)].
  - cbn [app]. assert (G : read_real r limit (c :: t) = Ok (RdNum n)). { unfold read_real. rewrite (proj2 (Z.eqb_neq c 45)), (proj2 (Z.eqb_neq c 43)) by auto. cbn [orb andb]. rewrite (proj2 (Z.eqb_neq c 46)) by auto. rewrite E. reflexivity. }
    exists n. split; auto. rewrite (proj2 (Z.eqb_neq c 43)), (proj2 (Z.eqb_neq c 45)) by auto. cbn [orb].
    assert (D : forall X Y : res rdres, c <> 35 -> (match c with 35 => X | _ => Y end) = Y). { intros X Y Hne. destruct c as [|p|p]; auto. do 6 (destruct p as [p|p|]; auto). contradiction. }
    rewrite D by auto. exact G.
  - assert (G : forall k : bool, sg = [if k then 45 else 43] -> read_real r limit (sg ++ c :: t) = Ok (RdNum (if k then num_negate n else n))).
    { intros k ->. cbn [app]. unfold read_real. assert (Ek : ((if k then 45 else 43) =? 45) = k) by (destruct k; reflexivity). rewrite Ek. replace (k || ((if k then 45 else 43) =? 43)) with true by (destruct k; reflexivity). rewrite !(no_special _ _ _ _ (c :: t) r) by auto. cbn [orb andb]. rewrite (proj2 (Z.eqb_neq c 46)) by auto. rewrite E. reflexivity. }
    assert (Im : forall c0, (c0 = 43 \/ c0 = 45) -> match t with [] => if (c =? 105) || (c =? 73) then Ok (RdImag (c0 =? 43)) else read_real r limit (c0 :: c :: t) | _ :: _ => read_real r limit (c0 :: c :: t) end = read_real r limit (c0 :: c :: t)).
    { intros c0 _. destruct t; auto. rewrite (proj2 (Z.eqb_neq c 105)), (proj2 (Z.eqb_neq c 73)) by congruence. reflexivity. }
    destruct Hs as [-> | ->]; cbn [app].
    + exists n. split; auto. change ((43 =? 43) || (43 =? 45)) with true. cbn match. rewrite (Im 43) by auto. apply (G false). reflexivity.
    + destruct (num_negate_ok n Cn) as (A1 & A2). exists (num_negate n). split. { change ((45 =? 43) || (45 =? 45)) with true. cbn match. rewrite (Im 45) by auto. apply (G true). reflexivity. } split; auto. rewrite A2, Vn. reflexivity.
Qed.
