(** The printed text, and reading it back *)
From Coq Require Import ZArith List Bool Lia Znumtheory Zpow_facts.
From Verif Require Import Outcome FloModel FloSpec FloProofs FloProofs2 FloProofs3 FloProofs4 FloProofs5 FloProofs6 FloProofs7.
Import ListNotations.
Local Open Scope Z_scope.
Ltac Zify.zify_post_hook ::= idtac.

Lemma chars_digit ds : map digit_char ds = chars ds. Proof. reflexivity. Qed.
Lemma chars_app a b : chars (a ++ b) = chars a ++ chars b. Proof. apply map_app. Qed.
Lemma dots_none point : forall ds digs, point < digs \/ digs + len ds - 1 <= point -> dots point digs ds = chars ds.
Proof.
  induction ds as [|d ds IH]; intros digs H; [reflexivity|]. destruct ds as [|d2 ds]; [reflexivity|]. rewrite len_cons in H. cbn [dots]. assert (0 < len (d2 :: ds)) by (rewrite len_cons; pose proof (len_nonneg ds); lia). rewrite (proj2 (Z.eqb_neq digs point)) by lia. cbn [app chars map]. f_equal. apply IH. lia.
Qed.
Lemma dots_split point : forall ds digs, digs <= point -> point < digs + len ds - 1 ->
  dots point digs ds = chars (firstn (Z.to_nat (point - digs + 1)) ds) ++ 46 :: chars (skipn (Z.to_nat (point - digs + 1)) ds).
Proof.
  induction ds as [|d ds IH]; intros digs H1 H2; [change (len []) with 0 in H2; lia|]. rewrite len_cons in H2. destruct ds as [|d2 ds]; [change (len []) with 0 in H2; lia|]. cbn [dots]. destruct (Z.eqb_spec digs point) as [->|Ne].
  - replace (point - point + 1) with 1 by ring. change (Z.to_nat 1) with 1%nat. cbn [firstn skipn chars map app]. do 2 f_equal. apply (dots_none point (d2 :: ds)). left. lia.
  - replace (Z.to_nat (point - digs + 1)) with (S (Z.to_nat (point - (digs + 1) + 1))) by lia. cbn [firstn skipn chars map app]. f_equal. apply IH; lia.
Qed.
Lemma repeat_chars n : repeat ch_zero n = chars (repeat 0 n). Proof. induction n as [|n IH]; cbn [repeat chars map]; [reflexivity|]. f_equal. exact IH. Qed.
Lemma dval_zeros n : forall acc, dval (repeat 0 n) acc = acc * 10 ^ Z.of_nat n.
Proof. induction n as [|n IH]; intros acc; cbn [repeat dval]; [rewrite Z.pow_0_r; lia|]. rewrite IH, Nat2Z.inj_succ, Z.pow_succ_r by lia. ring. Qed.
Lemma digits_zeros n : digits (repeat 0 n). Proof. unfold digits. induction n; cbn [repeat]; constructor; auto. lia. Qed.
Lemma digits_app a b : digits a -> digits b -> digits (a ++ b). Proof. intros. apply Forall_app. auto. Qed.
Lemma small_text_ok n : 0 <= n < 1000 -> exists xs, small_text n = chars xs /\ digits xs /\ xs <> [] /\ number xs = n.
Proof.
  intros H. unfold small_text. eexists. split; [reflexivity|].
  pose proof (Z.div_mod n 10 ltac:(lia)) as E1. pose proof (Z.mod_pos_bound n 10 ltac:(lia)) as B1. destruct (Z.ltb_spec n 10) as [L|L].
  - split; [repeat constructor; lia|]. split; [discriminate|reflexivity].
  - destruct (Z.ltb_spec n 100) as [L2|L2].
    + split; [repeat constructor; lia|]. split; [discriminate|]. unfold number. cbn [fold_left]. lia.
    + pose proof (Z.div_mod (n / 10) 10 ltac:(lia)) as E2. pose proof (Z.mod_pos_bound (n / 10) 10 ltac:(lia)) as B2. assert (E3 : n / 10 / 10 = n / 100) by (rewrite Z.div_div by lia; reflexivity). rewrite E3 in E2.
      split; [repeat constructor; lia|]. split; [discriminate|]. unfold number. cbn [fold_left]. lia.
Qed.
Lemma print_exponent_ok K : -324 < K < 324 -> exists ex, print_exponent K true = Ok ex /\ exp_text (K - 1) ex.
Proof.
  intros H. unfold print_exponent. rewrite (proj2 (Z.ltb_lt K 1000)), (proj2 (Z.ltb_lt (-1000) K)) by lia. cbn [andb]. unfold assert. rewrite orb_true_r.
  destruct (small_text_ok (Z.abs (K - 1)) ltac:(lia)) as (xs & E & Hd & Hn & Ex). rewrite E. eexists. split; [reflexivity|]. unfold ch_e. destruct (Z.ltb_spec (K - 1) 0) as [L|L].
  - replace (K - 1) with (if true then - number xs else number xs) by lia. exact (exp_some true [45] xs sign_minus Hd Hn).
  - replace (K - 1) with (if false then - number xs else number xs) by lia. exact (exp_some false [] xs sign_none Hd Hn).
Qed.
Lemma sign_ok (neg : bool) : sign_text neg (if neg then [ch_minus] else []). Proof. destruct neg; constructor. Qed.
Lemma print_text neg m k est ds K : print_ok m k est ds K -> 0 < m -> -324 < K < 324 ->
  exists text f e x j, print_double neg m k est (-3) 10 = Ok text /\ literal text neg f e x /\ Z.abs x < 325 /\ 0 <= j <= 10 /\ f = dval ds 0 * 10 ^ j /\ e = K - len ds - j /\
    (10 <= K -> j = if len ds =? 1 then 1 else 0).
Proof.
  intros (r & s & mm & mp2 & Es & Ed & Hne & Hdg & Hb) Hm HK. unfold print_double. rewrite (proj2 (Z.eqb_neq m 0)) by lia. rewrite Es. pose proof (len_nonneg ds) as Ln. assert (L1 : 1 <= len ds) by (destruct ds; [contradiction|]; rewrite len_cons; pose proof (len_nonneg ds); lia).
  rewrite Ed. cbn [bind fst snd]. replace (1 + len ds - 1) with (len ds) by ring. pose proof (sign_ok neg) as Sg. set (sg := if neg then [ch_minus] else []) in *.
  destruct ((K <? 10) && (-3 <? K)) eqn:Pl; cbn [negb].
  - apply andb_prop in Pl as (P1 & P2). apply Z.ltb_lt in P1, P2. change (print_exponent 1 false) with (@Ok (list Z) []). cbn [bind]. unfold trailing. destruct (Z.leb_spec K 0) as [L|L].
    + rewrite dots_none by lia. rewrite (proj2 (Z.leb_gt (len ds) K)) by lia. rewrite repeat_chars. eexists _, _, _, 0, 0. split; [reflexivity|]. split; [|split; [change (Z.abs 0) with 0; lia|split; [lia|split; [|split; [|lia]]]]].
      * pose proof (lit_point neg sg [0] (repeat 0 (Z.to_nat (- K)) ++ ds) 0 [] Sg ltac:(repeat constructor; lia) ltac:(apply digits_app; [apply digits_zeros|auto]) ltac:(left; discriminate) exp_none ) as X.
        rewrite chars_app in X. cbn [app] in X |- *. change (chars [0]) with [ch_zero] in X. cbn [app] in X. rewrite <- !app_assoc, app_nil_r in *. exact X.
      * rewrite number_dval. cbn [app dval]. rewrite dval_app, dval_zeros. cbn [Z.mul Z.add]. rewrite Z.pow_0_r. lia.
      * rewrite app_length, repeat_length. unfold len. lia.
    + destruct (Z.leb_spec (len ds) K) as [L2|L2].
      * rewrite dots_none by lia. rewrite repeat_chars. eexists _, _, _, 0, (K - len ds + 1). split; [reflexivity|]. split; [|split; [change (Z.abs 0) with 0; lia|split; [lia|split; [|split; [|lia]]]]].
        { pose proof (lit_point neg sg (ds ++ repeat 0 (Z.to_nat (K - len ds))) [0] 0 [] Sg ltac:(apply digits_app; [auto|apply digits_zeros]) ltac:(repeat constructor; lia) ltac:(right; discriminate) exp_none ) as X.
          rewrite chars_app in X. rewrite !app_nil_r in *. rewrite <- !app_assoc in *. exact X. }
        { rewrite number_dval, dval_app. cbn [dval]. rewrite dval_app, dval_zeros. rewrite Z2Nat.id, Z.pow_add_r by lia. cbn [dval]. ring. }
        { cbn [length]. lia. }
      * rewrite dots_split by lia. replace (K - 1 + 1) with K by ring. eexists _, _, _, 0, 0. split; [reflexivity|]. split; [|split; [change (Z.abs 0) with 0; lia|split; [lia|split; [|split; [|lia]]]]].
        { pose proof (lit_point neg sg (firstn (Z.to_nat K) ds) (skipn (Z.to_nat K) ds) 0 [] Sg) as X. cbn [app] in *. rewrite !app_nil_r in *. apply X; [..|exact exp_none].
          - unfold digits. rewrite <- (firstn_skipn (Z.to_nat K) ds) in Hdg. apply Forall_app in Hdg as (G & _). exact G.
          - unfold digits. rewrite <- (firstn_skipn (Z.to_nat K) ds) in Hdg. apply Forall_app in Hdg as (_ & G). exact G.
          - left. destruct ds; [contradiction|]. replace (Z.to_nat K) with (S (Z.to_nat (K - 1))) by lia. discriminate. }
        { rewrite firstn_skipn, number_dval, Z.pow_0_r. lia. }
        { rewrite skipn_length. unfold len in *. lia. }
  - destruct (print_exponent_ok K HK) as (ex & Ex & Hx). rewrite Ex. cbn [bind]. change (1 <=? 0) with false. cbv iota. cbn [app]. unfold trailing. destruct (Z.leb_spec (len ds) 1) as [L|L].
    + assert (E1 : len ds = 1) by lia. rewrite dots_none by lia. rewrite E1. cbn [Z.sub Z.opp Z.add Z.pos_sub Z.to_nat repeat app]. eexists _, _, _, (K - 1), 1. split; [reflexivity|]. split; [|split; [lia|split; [lia|split; [|split; [|reflexivity]]]]].
      * pose proof (lit_point neg sg ds [0] (K - 1) ex Sg Hdg ltac:(repeat constructor; lia) ltac:(right; discriminate) Hx) as X. exact X.
      * rewrite number_dval, dval_app. cbn [dval]. rewrite Z.pow_1_r. lia.
      * cbn [length]. lia.
    + rewrite dots_split by lia. change (Z.to_nat (1 - 1 + 1)) with 1%nat. cbn [app]. eexists _, _, _, (K - 1), 0. split; [reflexivity|]. split; [|split; [lia|split; [lia|split; [|split]]]].
      * pose proof (lit_point neg sg (firstn 1 ds) (skipn 1 ds) (K - 1) ex Sg) as X. rewrite <- app_assoc. cbn [app]. apply X; auto.
        -- unfold digits. rewrite <- (firstn_skipn 1 ds) in Hdg. apply Forall_app in Hdg as (G & _). exact G.
        -- unfold digits. rewrite <- (firstn_skipn 1 ds) in Hdg. apply Forall_app in Hdg as (_ & G). exact G.
        -- left. destruct ds; [contradiction|]. discriminate.
      * rewrite firstn_skipn, number_dval, Z.pow_0_r. lia.
      * rewrite skipn_length. unfold len in *. lia.
      * intros _. now rewrite (proj2 (Z.eqb_neq (len ds) 1)) by lia.
Qed.
(** ** A short decimal is not on the bad tie *)
Lemma no_tie f e : 0 < f < 10 ^ 30 -> 2 * dec_num f e <> (2 ^ 53 - 1) * dec_den e.
Proof.
  intros Hf E. unfold dec_num, dec_den in E. destruct (Z.le_gt_cases 0 e) as [L|L].
  - rewrite Z.max_l, Z.max_r, Z.pow_0_r, Z.mul_1_r in E by lia. pose proof (pow10_pos e L) as P. assert (Q : 2 ^ 53 < 2 ^ 1074) by (apply Z.pow_lt_mono_r; lia). set (c := 2 ^ 1074) in *. set (t := 10 ^ e) in *. clearbody c t. assert (1 <= f * t) by nia. rewrite p53_val in *. nia.
  - rewrite Z.max_r, Z.max_l, Z.pow_0_r, Z.mul_1_r in E by lia. set (a := - e) in *.
    assert (Pw : 10 ^ a = 5 ^ a * 2 ^ a) by (rewrite <- Z.pow_mul_l; reflexivity).
    assert (Dv : (5 ^ a | f)).
    { apply (Gauss (5 ^ a) (2 ^ 1075) f).
      - exists ((2 ^ 53 - 1) * 2 ^ a). replace (2 ^ 1075) with (2 * 2 ^ 1074) by reflexivity. replace (2 * 2 ^ 1074 * f) with (2 * (f * 2 ^ 1074)) by ring. rewrite E, Pw. ring.
      - apply rel_prime_Zpower; [unfold a; lia|lia|]. apply Zgcd_1_rel_prime. reflexivity. }
    assert (Ha : a < 43). { apply Z.lt_nge. intros L2. apply Z.divide_pos_le in Dv; [|lia]. assert (5 ^ 43 <= 5 ^ a) by (apply Z.pow_le_mono_r; lia). assert (10 ^ 30 < 5 ^ 43) by reflexivity. lia. }
    assert (10 ^ a <= 10 ^ 43) by (apply Z.pow_le_mono_r; lia). assert (Q : 2 ^ 53 * 10 ^ 43 < 2 * 2 ^ 1074) by reflexivity. pose proof (pow10_pos a ltac:(unfold a; lia)). set (c := 2 ^ 1074) in *. set (t := 10 ^ a) in *. set (t0 := 10 ^ 43) in *. assert (1 <= f) by lia. clear Hf Pw Dv. clearbody c t t0. rewrite p53_val in *. nia.
Qed.
Lemma compose_approx f e m k : 0 < f -> approximate f e = Fin m k -> finite_double m k -> 0 < m -> 2 * dec_num f e <> (2 ^ 53 - 1) * dec_den e ->
  exists m' k' n, reads_as f e m' k' /\ forall fuel, (n <= fuel)%nat -> compose fuel f e = Ok (ldexp_exact m' k').
Proof.
  intros Hf E Hd Hm NT. unfold compose. rewrite E. rewrite (proj2 (Z.ltb_lt 0 m)) by auto. cbn [andb].
  destruct ((p52 <? f) || (22 <? e) || (e <? -22)) eqn:C.
  - apply (algorithmR_ok f e ltac:(lia) NT m k); auto. apply Hd.
  - apply orb_false_elim in C as (C & C3). apply orb_false_elim in C as (C1 & C2). apply Z.ltb_ge in C1, C2, C3. unfold p52 in C1.
    destruct (fast_path f e ltac:(lia) ltac:(lia)) as (m' & k' & E2 & Hd2 & R). rewrite E in E2. injection E2 as -> ->. exists m', k', 0%nat. split; auto. intros. unfold ldexp_exact. destruct Hd2 as (_ & K). now rewrite (proj2 (Z.ltb_ge 971 k')) by lia.
Qed.
