(** Where reading goes wrong *)
From Coq Require Import ZArith List Bool Lia.
From Verif Require Import Outcome FloModel FloSpec FloProofs FloProofs2 FloProofs3 FloProofs4 FloProofs5 FloProofs6 FloProofs7 FloProofs8 FloProofs9.
Import ListNotations.
Local Open Scope Z_scope.
Ltac Zify.zify_post_hook ::= idtac.

(** n digits of f *)
Fixpoint digs (n : nat) (f : Z) : list Z := match n with O => [] | S n' => digs n' (f / 10) ++ [f mod 10] end.
Lemma digs_digits : forall n f, digits (digs n f).
Proof. induction n as [|n IH]; intros f; cbn [digs]; [constructor|]. apply digits_app; [apply IH|]. pose proof (Z.mod_pos_bound f 10 ltac:(lia)). repeat constructor; lia. Qed.
Lemma digs_length : forall n f, length (digs n f) = n.
Proof. induction n as [|n IH]; intros f; cbn [digs]; [reflexivity|]. rewrite app_length, IH. cbn [length]. lia. Qed.
Lemma digs_number : forall n f, 0 <= f < 10 ^ Z.of_nat n -> number (digs n f) = f.
Proof.
  intros n f. rewrite number_dval. revert f. induction n as [|n IH]; intros f H; cbn [digs]; [cbn [Z.of_nat] in H; rewrite Z.pow_0_r in H; cbn [dval]; lia|].
  rewrite dval_app. cbn [dval]. pose proof (Z.div_mod f 10 ltac:(lia)). rewrite Nat2Z.inj_succ, Z.pow_succ_r in H by lia. rewrite IH; [lia|]. split; [apply Z.div_pos; lia|apply Z.div_lt_upper_bound; lia].
Qed.
Definition tie_f : Z := (2 ^ 53 - 1) * 5 ^ 1075.
Definition frac_text (n : nat) (f : Z) : list Z := chars [0] ++ 46 :: chars (digs n f) ++ [].
Lemma frac_literal n f e : 0 <= f < 10 ^ Z.of_nat n -> e = 0 - Z.of_nat n -> literal (frac_text n f) false f e 0.
Proof.
  intros Hf ->. pose proof (lit_point false [] [0] (digs n f) 0 [] sign_none ltac:(repeat constructor; lia) (digs_digits _ _) ltac:(left; discriminate) exp_none) as X.
  rewrite digs_length in X. assert (En : number ([0] ++ digs n f) = f). { rewrite number_dval. cbn [app dval]. change (0 * 10 + 0) with 0. rewrite <- number_dval. now apply digs_number. }
  rewrite En in X. exact X.
Qed.
Definition tie_text : list Z := frac_text 1075 tie_f.
Definition five : Z := 5 ^ 1075. Definition two : Z := 2 ^ 1074.
Lemma five_pos : 0 < five. Proof. apply Z.pow_pos_nonneg; lia. Qed.
Lemma two_pos : 0 < two. Proof. apply Z.pow_pos_nonneg; lia. Qed.
Lemma ten_split : 10 ^ 1075 = 2 * two * five. Proof. change 10 with (2 * 5). rewrite Z.pow_mul_l. unfold two, five. change 1075 with (Z.succ 1074) at 1. rewrite Z.pow_succ_r by lia. reflexivity. Qed.
Lemma tie_f_five : tie_f = 9007199254740991 * five. Proof. reflexivity. Qed.
Lemma two_big : 9007199254740992 <= two. Proof. change 9007199254740992 with (2 ^ 53). apply Z.pow_le_mono_r; lia. Qed.
Lemma tie_small : 0 <= tie_f < 10 ^ Z.of_nat 1075.
Proof. change (Z.of_nat 1075) with 1075. rewrite ten_split, tie_f_five. pose proof five_pos. pose proof two_big. nia. Qed.
Lemma tie_literal : literal tie_text false tie_f (-1075) 0.
Proof. apply (frac_literal 1075 tie_f (-1075) tie_small). reflexivity. Qed.
Lemma tie_is : least_normal_tie tie_f (-1075).
Proof. unfold least_normal_tie, dec_num, dec_den. change (Z.max (-1075) 0) with 0. change (Z.max (- -1075) 0) with 1075. rewrite ten_split, tie_f_five, p53_val, Z.pow_0_r. fold two. ring. Qed.
Lemma tie_approx : approximate tie_f (-1075) = Fin p52 (-1074).
Proof.
  unfold approximate, int_to_double. rewrite rnd1_eq. replace (tie_f * 2 ^ 1074) with (Z.shiftl tie_f 1074) by (apply Z.shiftl_mul_pow2; lia). assert (I : rnd1 (Z.shiftl tie_f 1074) = Inf) by (vm_compute; reflexivity). rewrite I. cbn [Z.leb]. change (0 <=? -1075) with false. cbv iota. change (- -1075) with 1075. unfold quot_to_double.
  pose proof five_pos as P5. pose proof two_pos as P2. assert (G : Z.gcd tie_f (10 ^ 1075) = five). { rewrite ten_split, tie_f_five, Z.gcd_mul_mono_r_nonneg by lia. assert (Gc : Z.gcd 9007199254740991 (2 * two) = 1) by (vm_compute; reflexivity). rewrite Gc. lia. }
  rewrite G, ten_split, tie_f_five, !Z.div_mul by lia. vm_compute. reflexivity.
Qed.
Lemma loops f e x y1 y2 : judge p52 (-1074) x y1 = Prev -> judge (p52 - 1) (-1074) x y2 = Next -> cmp_y e p52 (-1074) = y1 -> cmp_y e (p52 - 1) (-1074) = y2 ->
  forall fuel, algR_loop fuel f e p52 (-1074) (-1074) x y1 = UB /\ algR_loop fuel f e (p52 - 1) (-1074) (-1074) x y2 = UB.
Proof.
  intros J1 J2 Y1 Y2. induction fuel as [|fuel (I1 & I2)]; [split; reflexivity|]. rewrite !algR_loop_S, J1, J2.
  change (prev_float p52 (-1074)) with (p52 - 1, -1074). change (next_float (p52 - 1) (-1074)) with (p52, -1074). cbn [fst snd]. unfold advance. change (0 <=? -1074) with false. change (-1074 <? 0) with true. change (-1074 =? -1074) with true. cbv iota. rewrite Y1, Y2. auto.
Qed.
Lemma tie_judge1 : judge p52 (-1074) (cmp_x tie_f (-1075) (-1074)) (cmp_y (-1075) p52 (-1074)) = Prev.
Proof.
  change (cmp_x tie_f (-1075) (-1074)) with (tie_f * two). change (cmp_y (-1075) p52 (-1074)) with (p52 * 10 ^ 1075). rewrite ten_split, tie_f_five. unfold p52 at 2. rewrite p52_val. pose proof five_pos as P5. pose proof two_pos as P2. replace (4503599627370496 * (2 * two * five)) with (9007199254740992 * (five * two)) by ring. rewrite <- Z.mul_assoc. assert (W : 0 < five * two) by nia. set (w := five * two) in *. clearbody w.
  unfold judge, p52. rewrite p52_val. replace (9007199254740991 * w - 9007199254740992 * w) with (- w) by ring. rewrite Z.abs_opp, Z.abs_eq by lia. replace (2 * (4503599627370496 * w)) with (9007199254740992 * w) by ring. rewrite Z.compare_refl. change (Z.even 4503599627370496) with true. rewrite Z.eqb_refl, (proj2 (Z.ltb_lt (9007199254740991 * w) (9007199254740992 * w))) by lia. reflexivity.
Qed.
Lemma tie_judge2 : judge (p52 - 1) (-1074) (cmp_x tie_f (-1075) (-1074)) (cmp_y (-1075) (p52 - 1) (-1074)) = Next.
Proof.
  change (cmp_x tie_f (-1075) (-1074)) with (tie_f * two). change (cmp_y (-1075) (p52 - 1) (-1074)) with ((p52 - 1) * 10 ^ 1075). rewrite ten_split, tie_f_five. unfold p52. rewrite p52_val. pose proof five_pos as P5. pose proof two_pos as P2. replace ((4503599627370496 - 1) * (2 * two * five)) with (9007199254740990 * (five * two)) by ring. rewrite <- Z.mul_assoc. assert (W : 0 < five * two) by nia. set (w := five * two) in *. clearbody w.
  unfold judge, p52. rewrite p52_val. replace (9007199254740991 * w - 9007199254740990 * w) with w by ring. rewrite Z.abs_eq by lia. replace (2 * ((4503599627370496 - 1) * w)) with (9007199254740990 * w) by ring. rewrite Z.compare_refl. change (Z.even (4503599627370496 - 1)) with false. rewrite (proj2 (Z.ltb_ge (9007199254740991 * w) (9007199254740990 * w))) by lia. reflexivity.
Qed.
Lemma tie_cond : (0 <? p52) && ((p52 <? tie_f) || (22 <? -1075) || (-1075 <? -22)) = true. Proof. change (-1075 <? -22) with true. rewrite orb_true_r. reflexivity. Qed.
Lemma tie_hangs fuel : read_real fuel tie_text = UB.
Proof.
  rewrite (read_real_literal fuel _ _ _ _ 0 tie_literal ltac:(change (Z.abs 0) with 0; lia)). unfold compose. rewrite tie_approx, tie_cond. unfold algorithmR.
  destruct (loops tie_f (-1075) _ _ _ tie_judge1 tie_judge2 eq_refl eq_refl fuel) as (-> & _). reflexivity.
Qed.
(** "1.7976931348623158e308" *)
Definition over_text : list Z := chars [1] ++ 46 :: chars [7;9;7;6;9;3;1;3;4;8;6;2;3;1;5;8] ++ 101 :: chars [3;0;8].
Lemma over_literal : literal over_text false 17976931348623158 292 308.
Proof.
  exact (lit_point false [] [1] [7;9;7;6;9;3;1;3;4;8;6;2;3;1;5;8] 308 (101 :: chars [3;0;8]) sign_none ltac:(repeat constructor; lia) ltac:(repeat constructor; lia) ltac:(left; discriminate) (exp_some false [] [3;0;8] sign_none ltac:(repeat constructor; lia) ltac:(discriminate))).
Qed.
Lemma over_reads : reads_as 17976931348623158 292 (2 ^ 53 - 1) 971.
Proof. apply reads_b_iff; [lia|exact max_double|reflexivity|vm_compute; reflexivity]. Qed.
Lemma over_inf fuel : read_real fuel over_text = Ok (Some (Flonum false Inf)).
Proof.
  rewrite (read_real_literal fuel _ _ _ _ 308 over_literal ltac:(change (Z.abs 308) with 308; lia)). assert (A : approximate 17976931348623158 292 = Inf) by (rewrite approx1_eq by lia; vm_compute; reflexivity). unfold compose. rewrite A. reflexivity.
Qed.
(** "2.4800000e-324" *)
Definition under_text : list Z := chars [2] ++ 46 :: chars [4;8;0;0;0;0;0] ++ 101 :: [45] ++ chars [3;2;4].
Lemma under_literal : literal under_text false 24800000 (-331) (-324).
Proof.
  exact (lit_point false [] [2] [4;8;0;0;0;0;0] (-324) (101 :: [45] ++ chars [3;2;4]) sign_none ltac:(repeat constructor; lia) ltac:(repeat constructor; lia) ltac:(left; discriminate) (exp_some true [45] [3;2;4] sign_minus ltac:(repeat constructor; lia) ltac:(discriminate))).
Qed.
Lemma least_double : is_double 1 (-1074). Proof. unfold is_double. rewrite p53_val. lia. Qed.
Lemma under_reads : reads_as 24800000 (-331) 1 (-1074).
Proof. apply reads_b_iff; [lia|exact least_double|reflexivity|vm_compute; reflexivity]. Qed.
Lemma under_zero fuel : read_real fuel under_text = Ok (Some (Flonum false (Fin 0 (-1074)))).
Proof.
  rewrite (read_real_literal fuel _ _ _ _ (-324) under_literal ltac:(change (Z.abs (-324)) with 324; lia)). assert (A : approximate 24800000 (-331) = Fin 0 (-1074)) by (vm_compute; reflexivity). unfold compose. rewrite A. reflexivity.
Qed.
(** "123456789012345678e-330" *)
Definition cut_text : list Z := chars [1;2;3;4;5;6;7;8;9;0;1;2;3;4;5;6;7;8] ++ 101 :: [45] ++ chars [3;3;0].
Lemma cut_literal : literal cut_text false 123456789012345678 (-330) (-330).
Proof.
  exact (lit_exp false [] [1;2;3;4;5;6;7;8;9;0;1;2;3;4;5;6;7;8] (-330) (101 :: [45] ++ chars [3;3;0]) sign_none ltac:(repeat constructor; lia) ltac:(discriminate) (exp_some true [45] [3;3;0] sign_minus ltac:(repeat constructor; lia) ltac:(discriminate)) ltac:(discriminate)).
Qed.
Lemma cut_reads : reads_as 123456789012345678 (-330) 24987932282 (-1074).
Proof. apply reads_b_iff; [lia|unfold is_double; rewrite p53_val; lia|reflexivity|vm_compute; reflexivity]. Qed.
Lemma cut_zero fuel : read_real fuel cut_text = Ok (Some (Flonum false (Fin 0 (-1074)))).
Proof. vm_compute. reflexivity. Qed.
