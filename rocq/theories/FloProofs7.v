(** read_real on decimal texts *)
From Coq Require Import ZArith List Bool Lia.
From Verif Require Import Outcome FloModel FloSpec FloProofs FloProofs2 FloProofs3 FloProofs4 FloProofs5 FloProofs6.
Import ListNotations.
Local Open Scope Z_scope.
Ltac Zify.zify_post_hook ::= idtac.

Lemma dval_fold : forall ds acc, fold_left (fun a d => a * 10 + d) ds acc = dval ds acc.
Proof. induction ds as [|d ds IH]; intros acc; [reflexivity|]. cbn [fold_left dval]. apply IH. Qed.
Lemma number_dval ds : number ds = dval ds 0. Proof. apply dval_fold. Qed.
Lemma dval_app a : forall b acc, dval (a ++ b) acc = dval b (dval a acc).
Proof. induction a as [|d a IH]; intros b acc; [reflexivity|]. cbn [app dval]. apply IH. Qed.
Definition nodigit (s : list Z) : Prop := match s with [] => True | c :: _ => digit_of c = None end.
Lemma digit_of_char d : 0 <= d <= 9 -> digit_of (d + 48) = Some d.
Proof. intros H. unfold digit_of. rewrite (proj2 (Z.leb_le 48 (d + 48))), (proj2 (Z.leb_le (d + 48) 57)) by lia. cbn [andb]. f_equal. lia. Qed.
Lemma read_digits_text ds : digits ds -> forall rest init, nodigit rest -> read_digits (chars ds ++ rest) init = (dval ds init, rest).
Proof.
  induction 1 as [|d ds Hd _ IH]; intros rest init Hr.
  - destruct rest as [|c r]; [reflexivity|]. cbn [chars map app read_digits dval]. cbn [nodigit] in Hr. now rewrite Hr.
  - cbn [chars map app read_digits dval]. rewrite digit_of_char by auto. now apply IH.
Qed.
Lemma dval_mono ds : digits ds -> forall a, 0 <= a -> a <= dval ds a.
Proof. induction 1 as [|d ds Hd _ IH]; intros a Ha; cbn [dval]; [lia|]. specialize (IH (a * 10 + d) ltac:(lia)). lia. Qed.
Lemma exp_digits_text xs : digits xs -> forall a, 0 <= a -> dval xs a < 325 -> exp_digits (chars xs) a false = (dval xs a, false, []).
Proof.
  induction 1 as [|d xs Hd Hx IH]; intros a Ha H; [reflexivity|]. cbn [chars map exp_digits dval] in *. rewrite digit_of_char by auto. cbv iota zeta. pose proof (dval_mono xs Hx (a * 10 + d) ltac:(lia)). unfold MAX_EXPONENT. rewrite (proj2 (Z.leb_gt 325 (a * 10 + d))) by lia. apply IH; lia.
Qed.
Lemma sign_char neg sg : sign_text neg sg -> forall d r, 0 <= d <= 9 ->
  let s := sg ++ d + 48 :: r in exists c2 r2, s = c2 :: r2 /\ (c2 =? ch_minus) = neg /\ (if (c2 =? ch_minus) || (c2 =? ch_plus) then r2 else s) = d + 48 :: r.
Proof.
  intros H d r Hd. unfold ch_minus, ch_plus. destruct H; cbn [app]; do 2 eexists; (split; [reflexivity|]); [|split; reflexivity|split; reflexivity].
  rewrite (proj2 (Z.eqb_neq (d + 48) 45)), (proj2 (Z.eqb_neq (d + 48) 43)) by lia. split; reflexivity.
Qed.
Lemma read_exponent_text x ex : exp_text x ex -> Z.abs x < 325 -> read_exponent ex = Some (x, false, []).
Proof.
  intros H Hx. destruct H as [|neg sg xs Hs Hd Hn]; [reflexivity|]. destruct xs as [|d xs]; [contradiction|]. inversion Hd as [|? ? Hd1 Hd2]; subst. cbn [read_exponent chars map]. change (101 =? ch_e) with true. cbv iota.
  destruct (sign_char neg sg Hs d (map (fun d0 : Z => d0 + 48) xs) Hd1) as (c2 & r2 & E1 & E2 & E3). rewrite E1 in *. cbv zeta. rewrite E3, E2.
  change (d + 48 :: map (fun d0 : Z => d0 + 48) xs) with (chars (d :: xs)). rewrite number_dval in *. pose proof (dval_mono (d :: xs) Hd 0 ltac:(lia)) as M0. rewrite (exp_digits_text (d :: xs) Hd 0 ltac:(lia)) by (destruct neg; lia). reflexivity.
Qed.
Lemma exp_nodigit x ex : exp_text x ex -> nodigit ex. Proof. intros H. destruct H; reflexivity. Qed.
Lemma chars_length ds : length (chars ds) = length ds. Proof. apply map_length. Qed.
(** after the sign *)
Lemma read_real_literal fuel s neg f e x : literal s neg f e x -> Z.abs x < 325 -> read_real fuel s = (do d <- compose fuel f e; Ok (Some (Flonum neg d))).
Proof.
  intros H Hax. destruct H as [neg sg di df x ex Hs Hi Hf Hne Hx|neg sg di x ex Hs Hi Hne Hx Hex].
  - (* with a point *)
    set (body := chars di ++ 46 :: chars df ++ ex).
    assert (Hsg : exists c r, sg ++ body = c :: r /\ (c =? ch_minus) = neg /\ (if (c =? ch_minus) || (c =? ch_plus) then r else sg ++ body) = body).
    { unfold body. destruct di as [|d di].
      - destruct Hs; cbn [app chars map]; do 2 eexists; split; try reflexivity; split; reflexivity.
      - inversion Hi; subst. cbn [chars map app]. destruct (sign_char neg sg Hs d (map (fun d0 : Z => d0 + 48) di ++ 46 :: chars df ++ ex)) as (c2 & r2 & E1 & E2 & E3); [auto|]. exists c2, r2. auto. }
    destruct Hsg as (c & r & E1 & E2 & E3). unfold read_real. rewrite E1 in *. cbv zeta. rewrite E2 in *. rewrite E3.
    assert (R1 : read_digits body 0 = (dval di 0, 46 :: chars df ++ ex)) by (apply read_digits_text; auto; reflexivity).
    assert (R2 : read_digits (chars df ++ ex) (dval di 0) = (dval df (dval di 0), ex)) by (apply read_digits_text; auto; eapply exp_nodigit; eauto).
    rewrite R1. cbn [fst snd].
    assert (Hb : exists c1 b, body = c1 :: b /\ (negb (c1 =? ch_dot) = true <-> di <> [])).
    { unfold body, ch_dot. destruct di as [|d di]; cbn [chars map app]; do 2 eexists; (split; [reflexivity|]); [split; [discriminate|congruence]|]. inversion Hi; subst. rewrite (proj2 (Z.eqb_neq (d + 48) 46)) by lia. split; auto. discriminate. }
    destruct Hb as (c1 & b & Eb & Hb). assert (Lb : length body = (length di + S (length df + length ex))%nat) by (unfold body; rewrite app_length, chars_length; cbn [length]; now rewrite app_length, chars_length).
    rewrite Eb at 1. cbv iota. set (ip := negb (c1 =? ch_dot)) in *. cbn [length]. rewrite app_length, chars_length. rewrite Lb.
    assert (G1 : ip && (S (length df + length ex) =? length di + S (length df + length ex))%nat = false). { destruct ip eqn:Ei; cbn [andb]; [|reflexivity]. apply Nat.eqb_neq. destruct di as [|d di]; [exfalso; now apply (proj1 Hb eq_refl)|cbn [length]; lia]. }
    rewrite G1. change (46 =? ch_dot) with true. cbv iota. cbn [andb].
    assert (G2 : negb ip && match chars df ++ ex with [] => true | _ :: _ => false end = false). { destruct ip eqn:Ei; cbn [andb negb]; [reflexivity|]. destruct df as [|d df]; [|reflexivity]. exfalso. destruct Hne as [Hne|Hne]; [apply Hb in Hne; discriminate|contradiction]. }
    rewrite G2. cbv iota. rewrite R2. cbn [fst snd].
    assert (G3 : negb ip && (length ex =? length df + length ex)%nat = false). { destruct ip eqn:Ei; cbn [andb negb]; [reflexivity|]. apply Nat.eqb_neq. destruct df as [|d df]; [|cbn [length]; lia]. exfalso. destruct Hne as [Hne|Hne]; [apply Hb in Hne; discriminate|contradiction]. }
    rewrite G3. rewrite (read_exponent_text x ex Hx Hax). cbv iota. rewrite number_dval, dval_app. replace (length df + length ex - length ex)%nat with (length df) by lia. reflexivity.
  - (* an exponent without a point *)
    destruct di as [|d di]; [contradiction|]. inversion Hi as [|? ? Hd1 Hd2]; subst. cbn [chars map app].
    destruct (sign_char neg sg Hs d (map (fun d0 : Z => d0 + 48) di ++ ex) Hd1) as (c & r & E1 & E2 & E3). unfold read_real. rewrite E1 in *. cbv zeta. rewrite E2 in *. rewrite E3.
    change (d + 48 :: map (fun d0 : Z => d0 + 48) di ++ ex) with (chars (d :: di) ++ ex). rewrite (read_digits_text (d :: di) Hi ex 0) by (eapply exp_nodigit; eauto). cbn [fst snd].
    unfold ch_dot. rewrite (proj2 (Z.eqb_neq (d + 48) 46)) by lia. cbn [negb andb]. rewrite app_length, chars_length. cbn [length]. rewrite (proj2 (Nat.eqb_neq _ _)) by lia.
    pose proof (read_exponent_text x ex Hx Hax) as RX. inversion Hx as [|neg2 sg2 xs]; subst; [contradiction|]. change (101 =? 46) with false. cbn [andb fst snd length]. rewrite RX, number_dval. cbv iota. now rewrite Z.sub_0_r.
Qed.
(** zero *)
Lemma nearest_zero D : 0 < D -> nearest 0 D 0 (-1074).
Proof. intros HD. split; [unfold is_double; rewrite p53_val; lia|]. intros m' k' H' Ne. change (units 0 (-1074)) with 0 in *. cbn [Z.mul Z.sub Z.opp Z.add Z.abs]. split; [lia|reflexivity]. Qed.
Lemma rnd_zero D : 0 < D -> rnd 0 D = Fin 0 (-1074).
Proof.
  intros HD. destruct (rnd_fin 0 D HD ltac:(lia)) as (m & k & E & K & N). { assert (0 < MAXU) by (apply Z.ltb_lt; vm_compute; reflexivity). set (M := MAXU) in *. clearbody M. nia. }
  destruct (nearest_unique _ D _ _ _ _ HD N (nearest_zero D HD)) as (-> & ->). exact E.
Qed.
Lemma raise_up_zero : forall fuel n, 0 <= n -> raise_up fuel (Fin 0 (-1074)) n = Fin 0 (-1074).
Proof.
  assert (M : forall n, mul_pow (Fin 0 (-1074)) n = Fin 0 (-1074)) by (intros; cbn [mul_pow]; unfold sv; cbn [Z.mul]; apply rnd_zero; lia).
  induction fuel as [|fuel IH]; intros n Hn; cbn [raise_up]; [reflexivity|]. destruct (Z.ltb_spec 22 n); rewrite M; [apply IH; lia|reflexivity].
Qed.
Lemma raise_down_zero : forall fuel n, n <= 0 -> raise_down fuel (Fin 0 (-1074)) n = Fin 0 (-1074).
Proof.
  assert (M : forall n, 0 <= n -> div_pow (Fin 0 (-1074)) n = Fin 0 (-1074)) by (intros; cbn [div_pow]; unfold sv; cbn [Z.mul]; apply rnd_zero; now apply pow10_pos).
  induction fuel as [|fuel IH]; intros n Hn; cbn [raise_down]; [reflexivity|]. destruct (Z.ltb_spec n (-22)); rewrite M by lia; [apply IH; lia|reflexivity].
Qed.
Lemma compose_zero fuel e : compose fuel 0 e = Ok (Fin 0 (-1074)).
Proof.
  assert (A : approximate 0 e = Fin 0 (-1074)). { unfold approximate. change (int_to_double 0) with (rnd 0 1). rewrite rnd_zero by lia. unfold raise_pow10. destruct (Z.leb_spec 0 e); [now apply raise_up_zero|apply raise_down_zero; lia]. }
  unfold compose. now rewrite A.
Qed.
