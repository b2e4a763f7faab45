(** Reading back what print_double printed *)
From Coq Require Import ZArith List Bool Lia.
From Verif Require Import Outcome FloModel FloSpec FloProofs FloProofs2 FloProofs3 FloProofs4 FloProofs5 FloProofs6 FloProofs7 FloProofs8.
Import ListNotations.
Local Open Scope Z_scope.
Ltac Zify.zify_post_hook ::= idtac.

Lemma print_ok_det m k est ds K : print_ok m k est ds K ->
  match print_scale m k est with (r, s, mm, mp2, K') => K' = K /\ print_digits (S (Z.to_nat (Z.log2 s))) (Z.even m) r s mm mp2 0 1 = Ok (chars ds, len ds) end.
Proof. intros (r & s & mm & mp2 & E & Ed & _). rewrite E. split; auto. rewrite Ed, dots0 by lia. do 2 f_equal. lia. Qed.
Lemma low_from f e : 5 * 10 ^ Z.max (- e) 0 <= f * 10 ^ Z.max e 0 * 10 ^ 324 -> low_ok f e.
Proof.
  intros H. unfold low_ok. set (b := Z.max (- e - 324) 0). set (a := Z.max (e + 324) 0). set (c := Z.max e 0) in *. set (d := Z.max (- e) 0) in *.
  pose proof (pow10_pos b ltac:(unfold b; lia)) as Pb. pose proof (pow10_pos d ltac:(unfold d; lia)) as Pd. apply (Z.mul_le_mono_pos_r _ _ (10 ^ d)); auto.
  replace (f * 10 ^ a * 10 ^ d) with (f * 10 ^ c * 10 ^ 324 * 10 ^ b). 2:{ rewrite <- !Z.mul_assoc. f_equal. rewrite <- !Z.pow_add_r by (unfold a, b, c, d; lia). f_equal. unfold a, b, c, d. lia. }
  replace (5 * 10 ^ b * 10 ^ d) with (5 * 10 ^ d * 10 ^ b) by ring. apply Z.mul_le_mono_nonneg_r; [lia|exact H].
Qed.
Lemma low_double f e m k : is_double m k -> 0 <= f -> 2 <= units m k -> reads_as f e m k -> low_ok f e.
Proof.
  intros Hd Hf Hu H. apply low_from. pose proof (dd_pos e) as PD. destruct (nearest_lower _ _ _ _ PD H) as [->|(L & _)]; [rewrite units_ulp in Hu; lia|].
  assert (G : 2 * gap_below m k <= units m k). { pose proof (gap_le m k ltac:(apply Hd)) as Gl. destruct Hd as (A & B & [->|C]); [change (ulp (-1074)) with 1 in Gl; lia|]. rewrite units_ulp in *. pose proof (ulp_pos k A). rewrite p52_val in C. nia. }
  assert (3 * dd e <= 2 * dec_num f e). { set (u := units m k) in *. set (g := gap_below m k) in *. set (D := dd e) in *. clearbody u g D. assert (3 <= 2 * u - g) by lia. nia. }
  unfold dec_num in H0. set (x := f * 10 ^ Z.max e 0) in *. fold (dd e). change (10 ^ Z.max (- e) 0) with (dd e). set (D := dd e) in *.
  assert (Q : 10 * 2 ^ 1074 <= 3 * 10 ^ 324) by (apply Z.leb_le; vm_compute; reflexivity). pose proof (pow2_pos 1074 ltac:(lia)) as Pc. pose proof (pow10_pos 324 ltac:(lia)) as Pt. set (c := 2 ^ 1074) in *. set (t := 10 ^ 324) in *. clearbody c t D x. clear H G L Hd Hf.
  apply (Z.mul_le_mono_pos_r _ _ (6 * c)); [lia|]. pose proof (Z.mul_le_mono_nonneg_r _ _ (10 * c) ltac:(lia) H0) as Q1. assert (2 * (x * c) * (3 * t) = x * t * (6 * c)) by ring. assert (0 <= x * c) by nia. pose proof (Z.mul_le_mono_nonneg_l _ _ (2 * (x * c)) ltac:(lia) Q) as Q2. lia.
Qed.
Lemma high_double f e m k : is_double m k -> reads_as f e m k -> k <= 970 \/ k = 971 /\ m <= 2 ^ 53 - 52 -> high_ok f e.
Proof.
  intros Hd H C. unfold high_ok. pose proof (dd_pos e) as PD. destruct (nearest_upper _ _ _ _ PD H) as (U & _).
  assert (B : (2 * units m k + ulp k) * (2 ^ 53 + 48) <= 2 * MAXU * 2 ^ 53).
  { rewrite units_ulp. unfold MAXU. destruct Hd as (A1 & A2 & _). pose proof (ulp_pos k A1) as Pu. rewrite p53_val in *. destruct C as [C|(-> & C)].
    - assert (2 * ulp k <= 2 ^ 2045). { rewrite <- ulp_S by lia. unfold ulp. apply Z.pow_le_mono_r; lia. } set (c := 2 ^ 2045) in *. clearbody c. assert ((2 * (m * ulp k) + ulp k) <= 9007199254740992 * c - c + ulp k) by nia. lia.
    - change (ulp 971) with (2 ^ 2045) in *. set (c := 2 ^ 2045) in *. clearbody c. nia. }
  set (N := dec_num f e) in *. set (D := dd e) in *. set (M := MAXU) in *. set (x := 2 * units m k + ulp k) in *. clearbody N D M x. rewrite p53_val in *. pose proof (Z.mul_le_mono_nonneg_r _ _ D ltac:(lia) B). lia.
Qed.
(** ** The least double and the greatest ones *)
Definition in_double (m k : Z) : bool := (-1074 <=? k) && (k <=? 971) && (0 <? m) && (m <? 2 ^ 53) && ((k =? -1074) || (2 ^ 52 <=? m)).
Lemma in_double_ok m k : in_double m k = true -> finite_double m k /\ 0 < m.
Proof. unfold in_double, finite_double, is_double. rewrite !andb_true_iff, orb_true_iff, !Z.leb_le, !Z.ltb_lt, Z.eqb_eq. intros H. repeat split; lia. Qed.
(** the same, faster to compute *)
Definition rnd1 (N : Z) : flo :=
  let j := if N <? p53 then 0 else Z.log2 N - 52 in
  let m := Z.shiftr N j in let r := Z.land N (Z.ones j) in let D' := Z.shiftl 1 j in
  let m' := if (D' <? 2 * r) || ((2 * r =? D') && Z.odd m) then m + 1 else m in
  let mj := if m' =? p53 then (p52, j + 1) else (m', j) in
  if 2045 <? snd mj then Inf else Fin (fst mj) (snd mj - 1074).
Lemma rnd1_eq N : rnd N 1 = rnd1 N.
Proof.
  unfold rnd, rnd1. rewrite Z.div_1_r. cbv zeta. set (j := if N <? p53 then 0 else Z.log2 N - 52). assert (Hj : 0 <= j). { unfold j. destruct (Z.ltb_spec N p53) as [L|L]; [lia|]. assert (Z.log2 p53 <= Z.log2 N) by (apply Z.log2_le_mono; auto). change (Z.log2 p53) with 53 in *. lia. }
  rewrite Z.shiftr_div_pow2, Z.land_ones, Z.shiftl_mul_pow2, !Z.mul_1_l by auto. reflexivity.
Qed.
Fixpoint raise_up1 (fuel : nat) (m k n : Z) : flo :=
  match fuel with
  | O => Fin m k
  | S f => if 22 <? n then match rnd1 (Z.shiftl m (k + 1074) * 10 ^ 22) with Fin m' k' => raise_up1 f m' k' (n - 22) | Inf => Inf end else rnd1 (Z.shiftl m (k + 1074) * 10 ^ n)
  end.
Lemma raise_inf : forall fuel n, raise_up fuel Inf n = Inf. Proof. induction fuel as [|fuel IH]; intros n; cbn [raise_up]; [reflexivity|]. destruct (22 <? n); [apply IH|reflexivity]. Qed.
Lemma rnd_exp N D m k : 0 < D -> 0 <= N -> rnd N D = Fin m k -> -1074 <= k.
Proof. intros HD HN E. destruct (rnd_nearest N D HD HN) as (m' & k' & ((A & _) & _) & E2). rewrite E in E2. destruct (971 <? k'); congruence. Qed.
Lemma rnd_m_nonneg N D m k : 0 < D -> 0 <= N -> rnd N D = Fin m k -> 0 <= m.
Proof. intros HD HN E. destruct (rnd_nearest N D HD HN) as (m' & k' & ((A & B & _) & _) & E2). rewrite E in E2. destruct (971 <? k'); [discriminate|]. injection E2 as -> ->. lia. Qed.
Lemma raise_up1_eq : forall fuel m k n, -1074 <= k -> 0 <= m -> 0 <= n -> raise_up fuel (Fin m k) n = raise_up1 fuel m k n.
Proof.
  induction fuel as [|fuel IH]; intros m k n Hk Hm Hn; [reflexivity|]. cbn [raise_up raise_up1 mul_pow]. assert (Es : Z.shiftl m (k + 1074) = sv m k) by (rewrite Z.shiftl_mul_pow2 by lia; reflexivity). rewrite Es, <- !rnd1_eq.
  assert (P : forall i, 0 <= i -> 0 <= sv m k * 10 ^ i) by (intros i Hi; pose proof (pow10_pos i Hi); unfold sv; pose proof (pow2_pos (k + 1074) ltac:(lia)); nia).
  destruct (Z.ltb_spec 22 n) as [L|L]; [|reflexivity]. destruct (rnd (sv m k * 10 ^ 22) 1) as [m' k'|] eqn:E; [|apply raise_inf]. apply IH; [apply (rnd_exp _ 1 m' k' ltac:(lia) (P 22 ltac:(lia)) E)|apply (rnd_m_nonneg _ 1 m' k' ltac:(lia) (P 22 ltac:(lia)) E)|lia].
Qed.
Definition approx1 (f e : Z) : flo := match rnd1 (Z.shiftl f 1074) with Inf => Inf | Fin m k => raise_up1 (S (Z.to_nat e)) m k e end.
Lemma approx1_eq f e : 0 <= f -> 0 <= e -> approximate f e = approx1 f e.
Proof.
  intros Hf He. unfold approximate, approx1, int_to_double, raise_pow10. rewrite <- rnd1_eq, Z.shiftl_mul_pow2, (proj2 (Z.leb_le 0 e)) by lia. assert (P : 0 <= f * 2 ^ 1074) by (pose proof (pow2_pos 1074 ltac:(lia)); nia). destruct (rnd (f * 2 ^ 1074) 1) as [m k|] eqn:E; [|reflexivity]. apply raise_up1_eq; auto; [apply (rnd_exp _ 1 m k ltac:(lia) P E)|apply (rnd_m_nonneg _ 1 m k ltac:(lia) P E)].
Qed.
Lemma rnd_mono N1 N2 m k : 0 <= N1 <= N2 -> rnd N2 1 = Fin m k -> exists m' k', rnd N1 1 = Fin m' k' /\ finite_double m' k' /\ finite_double m k /\ units m' k' <= units m k /\ (1 <= N1 -> 0 < m').
Proof.
  intros HN E. destruct (rnd_nearest N2 1 ltac:(lia) ltac:(lia)) as (m2 & k2 & H2 & E2). rewrite E in E2. destruct (Z.ltb_spec 971 k2) as [L|L]; [discriminate|]. injection E2 as <- <-.
  destruct (rnd_nearest N1 1 ltac:(lia) ltac:(lia)) as (m1 & k1 & H1 & E1). pose proof H1 as (D1 & F1). pose proof H2 as (D2 & F2).
  assert (Le : units m1 k1 <= units m k).
  { apply Z.le_ngt. intros G. destruct (F1 m k D2 ltac:(lia)) as (X1 & _). destruct (F2 m1 k1 D1 ltac:(lia)) as (X2 & _). assert (N1 = N2) as Eq by lia. rewrite <- Eq in H2. destruct (nearest_unique _ 1 _ _ _ _ ltac:(lia) H1 H2) as (-> & ->). lia. }
  assert (K1 : k1 <= 971).
  { apply Z.le_ngt. intros G. pose proof (finite_le m k (conj D2 L)) as M. destruct D1 as (A & B & [C|C]); [lia|]. assert (units m1 k1 <= MAXU) by lia. unfold MAXU, units in H. assert (2 ^ 2046 <= 2 ^ (k1 + 1074)) by (apply Z.pow_le_mono_r; lia). assert (E46 : 2 ^ 2046 = 2 * 2 ^ 2045) by (change 2046 with (Z.succ 2045); apply Z.pow_succ_r; lia). pose proof (pow2_pos 2045 ltac:(lia)). set (c := 2 ^ 2045) in *. set (d := 2 ^ 2046) in *. set (w := 2 ^ (k1 + 1074)) in *. clearbody c d w. rewrite p53_val, p52_val in *. nia. }
  rewrite (proj2 (Z.ltb_ge 971 k1)) in E1 by auto. exists m1, k1. split; [exact E1|]. split; [split; auto|]. split; [split; auto|]. split; auto.
  intros P. assert (G : units 1 (-1074) <= units m1 k1). { apply (nearest_ge N1 1 m1 k1 1 (-1074) ltac:(lia) H1); [unfold is_double; rewrite p53_val; lia|]. change (units 1 (-1074)) with 1. lia. } change (units 1 (-1074)) with 1 in G. destruct D1 as (A & B & _). rewrite units_ulp in G. pose proof (ulp_pos k1 A). nia.
Qed.
Lemma raise_mono : forall fuel m k n m2 k2 m3 k3, finite_double m k -> 0 < m -> 0 <= n -> units m k <= units m2 k2 -> raise_up fuel (Fin m2 k2) n = Fin m3 k3 ->
  exists m' k', raise_up fuel (Fin m k) n = Fin m' k' /\ finite_double m' k' /\ 0 < m'.
Proof.
  induction fuel as [|fuel IH]; intros m k n m2 k2 m3 k3 Hd Hm Hn Hu E; [exists m, k; auto|]. cbn [raise_up mul_pow] in *. rewrite !sv_units in *. assert (U1 : 1 <= units m k) by (destruct Hd as ((A & _) & _); rewrite units_ulp; pose proof (ulp_pos k A); nia).
  assert (B : forall i, 0 <= i -> 1 <= units m k * 10 ^ i <= units m2 k2 * 10 ^ i). { intros i Hi. pose proof (pow10_pos i Hi). split; [nia|]. apply Z.mul_le_mono_nonneg_r; lia. }
  destruct (Z.ltb_spec 22 n) as [L|L].
  - destruct (rnd (units m2 k2 * 10 ^ 22) 1) as [m4 k4|] eqn:E4; [|rewrite raise_inf in E; discriminate]. destruct (rnd_mono (units m k * 10 ^ 22) (units m2 k2 * 10 ^ 22) m4 k4 ltac:(pose proof (B 22 ltac:(lia)); lia) E4) as (m5 & k5 & E5 & F5 & _ & U5 & P5). rewrite E5. apply (IH m5 k5 (n - 22) m4 k4 m3 k3); auto; [apply P5; apply (B 22); lia|lia].
  - destruct (rnd_mono (units m k * 10 ^ n) (units m2 k2 * 10 ^ n) m3 k3 ltac:(pose proof (B n ltac:(lia)); lia) E) as (m5 & k5 & E5 & F5 & _ & U5 & P5). exists m5, k5. split; auto. split; auto. apply P5. apply B. auto.
Qed.
Lemma approx_mono f f2 e m3 k3 : 0 < f <= f2 -> 0 <= e -> approximate f2 e = Fin m3 k3 -> exists m k, approximate f e = Fin m k /\ finite_double m k /\ 0 < m.
Proof.
  intros Hf He E. unfold approximate, int_to_double, raise_pow10 in *. rewrite (proj2 (Z.leb_le 0 e)) in * by auto. pose proof (pow2_pos 1074 ltac:(lia)) as P. set (c := 2 ^ 1074) in *. clearbody c. destruct (rnd (f2 * c) 1) as [m2 k2|] eqn:E2; [|discriminate].
  destruct (rnd_mono (f * c) (f2 * c) m2 k2 ltac:(nia) E2) as (m1 & k1 & E1 & F1 & _ & U1 & P1). rewrite E1. eapply raise_mono; eauto. apply P1. nia.
Qed.
(** the greatest printed texts *)
Definition is_fin (x : flo) : bool := match x with Fin _ _ => true | Inf => false end.
Lemma top17 : is_fin (approx1 17976931348623157 292) = true. Proof. vm_compute. reflexivity. Qed.
Lemma top16 : is_fin (approx1 1797693134862315 293) = true. Proof. vm_compute. reflexivity. Qed.
Lemma top15 : is_fin (approx1 179769313486231 294) = true. Proof. vm_compute. reflexivity. Qed.
Lemma top_fin f f2 e : is_fin (approx1 f2 e) = true -> 0 < f <= f2 -> 0 <= e -> exists m k, approximate f e = Fin m k /\ finite_double m k /\ 0 < m.
Proof. intros T Hf He. rewrite <- approx1_eq in T by lia. destruct (approximate f2 e) as [m3 k3|] eqn:E; [|discriminate]. eapply approx_mono; eauto. Qed.
Lemma top_low : 2 * 17976931348623056 * 10 ^ 292 < (2 * (2 ^ 53 - 51) - 1) * 2 ^ 971. Proof. apply Z.ltb_lt. vm_compute. reflexivity. Qed.
Lemma top_high : (2 * (2 ^ 53 - 1) + 1) * 2 ^ 971 < 2 * 17976931348623159 * 10 ^ 292. Proof. apply Z.ltb_lt. vm_compute. reflexivity. Qed.
Lemma top_high2 : (2 * (2 ^ 53 - 2) + 1) * 2 ^ 971 < 2 * 17976931348623158 * 10 ^ 292. Proof. apply Z.ltb_lt. vm_compute. reflexivity. Qed.
Lemma top_near : (2 ^ 53 - 1) * 2 ^ 971 < 17976931348623158 * 10 ^ 292 /\ 2 * (17976931348623157 * 10 ^ 292) < 2 * ((2 ^ 53 - 1) * 2 ^ 971) + 2 ^ 971 /\ 2 * ((2 ^ 53 - 1) * 2 ^ 971) - 2 ^ 971 < 2 * (17976931348623157 * 10 ^ 292) /\
  (2 ^ 53 - 1) * 2 ^ 971 - 17976931348623157 * 10 ^ 292 < 17976931348623158 * 10 ^ 292 - (2 ^ 53 - 1) * 2 ^ 971 /\ 17976931348623157 * 10 ^ 292 < (2 ^ 53 - 1) * 2 ^ 971.
Proof. repeat split; apply Z.ltb_lt; vm_compute; reflexivity. Qed.
Definition t292 : Z := 10 ^ 292.
Lemma t292_pos : 0 < t292. Proof. apply (pow10_pos 292). lia. Qed.
Lemma t292_e e : 292 <= e -> 10 ^ e = 10 ^ (e - 292) * t292. Proof. intros H. unfold t292. rewrite <- Z.pow_add_r by lia. f_equal. lia. Qed.
Lemma t292_lt e : 0 <= e < 292 -> 10 * 10 ^ e <= t292. Proof. intros H. unfold t292. rewrite <- Z.pow_succ_r by lia. apply Z.pow_le_mono_r; lia. Qed.
Lemma t292_10 : 10 ^ 10 <= t292. Proof. unfold t292. apply Z.pow_le_mono_r; lia. Qed.
Lemma top_interval f e m : 0 <= e -> is_double m 971 -> 2 ^ 53 - 52 < m -> reads_as f e m 971 ->
  17976931348623056 * t292 < f * 10 ^ e < 17976931348623159 * t292 /\ (17976931348623158 * t292 <= f * 10 ^ e -> m = 2 ^ 53 - 1).
Proof.
  intros He Hd Hm H. unfold t292. unfold reads_as, dec_num, dec_den in H. rewrite Z.max_l, Z.max_r, Z.pow_0_r in H by lia. destruct (nearest_upper _ 1 _ _ ltac:(lia) H) as (U & _). destruct (nearest_lower _ 1 _ _ ltac:(lia) H) as [L|(L & _)]; [rewrite p53_val in Hm; lia|].
  assert (G : gap_below m 971 = ulp 971). { unfold gap_below. rewrite p53_val in *. rewrite p52_val. destruct (Z.eqb_spec m 4503599627370496); [lia|reflexivity]. } rewrite G, !units_ulp in *. unfold ulp in *. rewrite (Z.pow_add_r 2 971 1074) in * by lia.
  pose proof (pow2_pos 1074 ltac:(lia)) as P. pose proof (pow2_pos 971 ltac:(lia)) as P2. pose proof top_low as T1. pose proof top_high as T2. pose proof top_high2 as T3. destruct Hd as (_ & Hd & _). set (c := 2 ^ 1074) in *. set (w := 2 ^ 971) in *. set (t := 10 ^ 292) in *. set (x := f * 10 ^ e) in *. clearbody c w t x. clear G H. rewrite p53_val in *.
  assert (U' : 2 * x <= (2 * m + 1) * w) by (apply (Z.mul_le_mono_pos_r _ _ c); lia). assert (L' : (2 * m - 1) * w <= 2 * x) by (apply (Z.mul_le_mono_pos_r _ _ c); lia).
  split; [split; nia|]. intros Q. assert (9007199254740990 < m) by nia. lia.
Qed.
Lemma top_last f e : f = 17976931348623158 -> e = 292 -> reads_as f e (2 ^ 53 - 1) 971 -> (forall P', reads_as P' e (2 ^ 53 - 1) 971 -> dec_dist f e (2 ^ 53 - 1) 971 <= dec_dist P' e (2 ^ 53 - 1) 971) -> False.
Proof.
  intros -> -> H B. pose proof top_near as (T1 & T2 & T3 & T4 & T5). assert (R : reads_as 17976931348623157 292 (2 ^ 53 - 1) 971).
  { apply reads_b_iff; [lia|exact max_double|rewrite p53_val; lia|]. unfold reads_b, dec_num, dec_den. rewrite Z.max_l, Z.max_r, Z.pow_0_r, !Z.mul_1_r by lia. assert (G : gap_below (2 ^ 53 - 1) 971 = ulp 971) by reflexivity. rewrite G, units_ulp. unfold ulp. rewrite (Z.pow_add_r 2 971 1074) by lia.
    pose proof (pow2_pos 1074 ltac:(lia)) as P. set (c := 2 ^ 1074) in *. set (w := 2 ^ 971) in *. set (t := 10 ^ 292) in *. clearbody c w t. apply andb_true_intro. split; apply orb_true_intro; left; apply Z.ltb_lt; rewrite p53_val in *; nia. }
  specialize (B _ R). unfold dec_dist, dec_num, dec_den in B. rewrite Z.max_l, Z.max_r, Z.pow_0_r, !Z.mul_1_r in B by lia. rewrite units_ulp in B. unfold ulp in B. rewrite (Z.pow_add_r 2 971 1074) in B by lia. pose proof (pow2_pos 1074 ltac:(lia)) as P. set (c := 2 ^ 1074) in *. set (w := 2 ^ 971) in *. set (t := 10 ^ 292) in *. clearbody c w t. rewrite p53_val in *.
  rewrite (Z.mul_assoc _ w c), <- !Z.mul_sub_distr_r, !Z.abs_mul, (Z.abs_eq c) in B by lia. apply Z.mul_le_mono_pos_r in B; [|auto]. lia.
Qed.
Lemma unchars ds : map (fun c => c - 48) (chars ds) = ds.
Proof. unfold chars. rewrite map_map. rewrite <- (map_id ds) at 2. apply map_ext. intros. lia. Qed.
Lemma est_range m k est : is_double m k -> 0 < m -> k <= 971 -> estimate_ok m k est -> -323 <= est <= 309.
Proof.
  intros Hd Hm Hk He. pose proof (finite_le m k (conj Hd Hk)) as M. pose proof (units_nonneg m k Hd) as U. split.
  - assert (1 <= units m k). { destruct Hd as (A & B & _). rewrite units_ulp. pose proof (ulp_pos k A). nia. } pose proof (est_ge m k est (-324) He) as G. enough (-324 + 1 <= est) by lia. apply G. assert (Q : 2 * dn (-324) <= dd (-324)) by (apply Z.leb_le; vm_compute; reflexivity). pose proof (dd_pos (-324)). set (D := dd (-324)) in *. clearbody D. nia.
  - apply (est_le m k est 309 He). assert (Q : MAXU * dd 309 < dn 309) by (apply Z.ltb_lt; vm_compute; reflexivity). change (dd 309) with 1 in *. lia.
Qed.
Definition least_check : bool :=
  match print_scale 1 (-1074) (-323) with (r, s, mm, mp2, K) =>
    match print_digits (S (Z.to_nat (Z.log2 s))) (Z.even 1) r s mm mp2 0 1 with
    | Ok (cs, n) => (K =? -323) && match cs with [c] => c =? 53 | _ => false end
    | _ => false
    end
  end.
Lemma least_check_ok : least_check = true. Proof. vm_compute. reflexivity. Qed.
Lemma least_digits ds K : print_ok 1 (-1074) (-323) ds K -> ds = [5] /\ K = -323.
Proof.
  intros Hp. pose proof (print_ok_det _ _ _ _ _ Hp) as Det. assert (C : least_check = true -> ds = [5] /\ K = -323); [|exact (C least_check_ok)]. unfold least_check. intros C. destruct (print_scale 1 (-1074) (-323)) as [[[[r s] mm] mp2] K']. destruct Det as (-> & Det). rewrite Det in C. apply andb_prop in C as (C1 & C2). apply Z.eqb_eq in C1.
  destruct ds as [|d [|d2 ds]]; try discriminate. cbn [chars map] in C2. apply Z.eqb_eq in C2. split; auto. f_equal. lia.
Qed.
Lemma approx_top m est ds K f e j : is_double m 971 -> 2 ^ 53 - 52 < m -> print_ok m 971 est ds K ->
  0 <= j <= 10 -> f = dval ds 0 * 10 ^ j -> e = K - len ds - j -> (10 <= K -> j = if len ds =? 1 then 1 else 0) -> reads_as f e m 971 -> 0 < f -> 0 <= e ->
  exists m' k', approximate f e = Fin m' k' /\ finite_double m' k' /\ 0 < m'.
Proof.
  intros Hd C Hp Hj Ef Ee Hj2 Hr Hf0 L.
    pose proof (top_interval f e m L Hd C Hr) as ((I1 & I2) & I3). destruct Hp as (_ & _ & _ & _ & _ & _ & Hne & Hdg & (B1 & B2 & B3 & B4 & _)). set (P := dval ds 0) in *. set (n := len ds) in *.
    assert (L1 : 1 <= n) by (unfold n; destruct ds; [contradiction|]; rewrite len_cons; pose proof (len_nonneg ds); lia).
    assert (E294 : e <= 294). { apply Z.le_ngt. intros G. pose proof (t292_e e ltac:(lia)) as E10. assert (E3 : 10 ^ (e - 292) = 10 ^ (e - 295) * 1000). { change 1000 with (10 ^ 3). rewrite <- Z.pow_add_r by lia. f_equal. lia. } pose proof t292_pos. rewrite E10, E3 in *. set (w := 10 ^ (e - 295)) in *. clearbody w. rewrite !Z.mul_assoc in *. apply Z.mul_lt_mono_pos_r in I1; [|auto]. apply Z.mul_lt_mono_pos_r in I2; [|auto]. lia. }
    assert (K10 : 10 <= K). { apply Z.le_ngt. intros G. assert (E10 : 10 ^ j * 10 ^ e * 10 ^ n = 10 ^ K) by (rewrite <- !Z.pow_add_r by lia; f_equal; lia). assert (10 ^ K <= 10 ^ 10) by (apply Z.pow_le_mono_r; lia). pose proof t292_10. pose proof (pow10_pos j ltac:(lia)). pose proof (pow10_pos e L). subst f. set (a := 10 ^ j) in *. set (b := 10 ^ e) in *. set (c := 10 ^ n) in *. assert (P * a * b < c * (a * b)) by (rewrite <- Z.mul_assoc; apply Z.mul_lt_mono_pos_r; nia). nia. }
    specialize (Hj2 K10). assert (F17 : f < 100000000000000000).
    { destruct (Z.eqb_spec n 1) as [N1|N1]; subst j.
      - rewrite N1 in *. change (10 ^ 1) with 10 in *. lia.
      - rewrite Z.pow_0_r, Z.mul_1_r in Ef. assert (10 ^ n <= 10 ^ 17) by (apply Z.pow_le_mono_r; lia). change (10 ^ 17) with 100000000000000000 in *. lia. }
    assert (E292 : 292 <= e). { apply Z.le_ngt. intros G. pose proof (t292_lt e ltac:(lia)). pose proof (pow10_pos e L). set (w := 10 ^ e) in *. clearbody w. assert (f * w <= 100000000000000000 * w) by (apply Z.mul_le_mono_nonneg; lia). lia. }
    pose proof t292_pos as P292. rewrite (t292_e e E292) in *. rewrite Z.mul_assoc in *. apply Z.mul_lt_mono_pos_r in I1, I2; [|auto|auto]. assert (Ce : e = 292 \/ e = 293 \/ e = 294) by lia. clear E292 E294. destruct Ce as [Ce|[Ce|Ce]]; rewrite Ce in I1, I2, I3.
    + change (292 - 292) with 0 in *. rewrite Z.pow_0_r, Z.mul_1_r in *. destruct (Z.eq_dec f 17976931348623158) as [E8|E8].
      * exfalso. rewrite E8 in I3. specialize (I3 ltac:(lia)). subst m.
        assert (J0 : j = 0). { destruct (Z.eqb_spec n 1) as [N1|N1]; auto. exfalso. rewrite N1 in *. change (10 ^ 1) with 10 in *. subst j. change (10 ^ 1) with 10 in *. lia. } rewrite J0 in *. rewrite Z.pow_0_r, Z.mul_1_r in Ef. rewrite Z.sub_0_r in Ee. rewrite <- Ee, <- Ef in B4. apply (top_last f e E8 Ce Hr B4).
      * rewrite Ce. apply (top_fin f 17976931348623157 292 top17); lia.
    + change (10 ^ (293 - 292)) with 10 in *. rewrite Ce. apply (top_fin f 1797693134862315 293 top16); lia.
    + change (10 ^ (294 - 292)) with 100 in *. rewrite Ce. apply (top_fin f 179769313486231 294 top15); lia.
Qed.
Lemma approx_printed m k est ds K f e j : finite_double m k -> 0 < m -> estimate_ok m k est -> print_ok m k est ds K ->
  0 <= j <= 10 -> f = dval ds 0 * 10 ^ j -> e = K - len ds - j -> (10 <= K -> j = if len ds =? 1 then 1 else 0) -> reads_as f e m k -> 0 < f < 10 ^ 308 ->
  exists m' k', approximate f e = Fin m' k' /\ finite_double m' k' /\ 0 < m'.
Proof.
  intros Hfd Hm He Hp Hj Ef Ee Hj2 Hr Hf. pose proof Hfd as (Hd & Hk). pose proof (print_ok_det _ _ _ _ _ Hp) as Det.
  destruct (Z.le_gt_cases 0 e) as [L|L].
  - assert (C : k <= 970 \/ k = 971 /\ m <= 2 ^ 53 - 52 \/ k = 971 /\ 2 ^ 53 - 52 < m) by lia. destruct C as [C|[C|(-> & C)]]; [apply approx_up; auto; eapply high_double; eauto|apply approx_up; auto; eapply high_double; eauto|].
    apply (approx_top m est ds K f e j); auto. lia.
  - apply approx_down; auto. destruct (Z.le_gt_cases 2 (units m k)) as [U|U]; [eapply low_double; eauto; lia|].
    assert (E1 : m = 1 /\ k = -1074). { destruct Hd as (A & B & C). rewrite units_ulp in U. pose proof (ulp_pos k A). rewrite p52_val in C. destruct C as [->|C]; [change (ulp (-1074)) with 1 in U; lia|nia]. } destruct E1 as (-> & ->).
    assert (est = -323) as ->. { pose proof (est_range 1 (-1074) est Hd Hm ltac:(lia) He). pose proof (est_le 1 (-1074) est (-323) He ltac:(lt_cmp)). lia. }
    destruct (least_digits ds K Hp) as (-> & ->). change (dval [5] 0) with 5 in Ef. change (len [5]) with 1 in *. subst f e. unfold low_ok. rewrite Z.max_l, Z.max_r by lia. rewrite Z.pow_0_r, Z.mul_1_r. replace (- (-323 - 1 - j) - 324) with j by ring. lia.
Qed.
Lemma best_reads m k K P n j : best m k K P n -> 0 <= j -> reads_as (P * 10 ^ j) (K - n - j) m k.
Proof. intros (_ & _ & H & _) Hj. apply reads_pow; auto. now replace (K - n - j + j) with (K - n) by ring. Qed.
Lemma K_range m k est K : finite_double m k -> 0 < m -> estimate_ok m k est -> est <= K <= est + 1 -> -324 < K < 324.
Proof. intros (Hd & Hk) Hm He HK. pose proof (est_range m k est Hd Hm Hk He). lia. Qed.
Lemma printed neg m k est : finite_double m k -> 0 < m -> estimate_ok m k est ->
  exists text f e w P x n N, print_double neg m k est (-3) 10 = Ok text /\ literal text neg f e w /\ dec_num f e * dec_den x = dec_num P x * dec_den e /\
    10 ^ (n - 1) <= P < 10 ^ n /\ 1 <= n <= 17 /\ reads_as P x m k /\
    (forall P', reads_as P' x m k -> dec_dist P x m k <= dec_dist P' x m k) /\
    (forall P' e', 0 < P' < 10 ^ (n - 1) -> ~ reads_as P' e' m k) /\
    forall fuel, (N <= fuel)%nat -> read_real fuel text = Ok (Some (Flonum neg (Fin m k))).
Proof.
  intros Hfd Hm He. pose proof Hfd as (Hd & Hk). destruct (print_ok_all m k est Hd Hm He) as (ds & K & HK & Hp). pose proof (K_range m k est K Hfd Hm He HK) as KR.
  destruct (print_text neg m k est ds K Hp Hm KR) as (text & f & e & w & j & Et & Lit & Hw & Hj & Ef & Ee & Hj2). pose proof Hp as (_ & _ & _ & _ & _ & _ & Hne & Hdg & Hb). pose proof Hb as (B1 & B2 & B3 & B4 & B5).
  assert (L1 : 1 <= len ds) by (destruct ds; [contradiction|]; rewrite len_cons; pose proof (len_nonneg ds); lia).
  set (P := dval ds 0) in *. set (n := len ds) in *. assert (P0 : 0 < P) by (pose proof (pow10_pos (n - 1) ltac:(lia)); lia).
  assert (PU : P < 10 ^ 17). { assert (10 ^ n <= 10 ^ 17) by (apply Z.pow_le_mono_r; lia). lia. }
  assert (Hf : 0 < f < 10 ^ 30). { pose proof (pow10_pos j ltac:(lia)). assert (10 ^ j <= 10 ^ 10) by (apply Z.pow_le_mono_r; lia). subst f. split; [nia|]. change (10 ^ 17) with 100000000000000000 in PU. change (10 ^ 10) with 10000000000 in *. set (t := 10 ^ j) in *. clearbody t. assert (P * t <= 100000000000000000 * 10000000000) by nia. change (10 ^ 30) with 1000000000000000000000000000000. lia. }
  pose proof (best_reads m k K P n j Hb ltac:(lia)) as Hr. rewrite <- Ef, <- Ee in Hr.
  assert (Hf2 : 0 < f < 10 ^ 308) by (split; [lia|]; assert (10 ^ 30 <= 10 ^ 308) by (apply Z.pow_le_mono_r; lia); lia).
  destruct (approx_printed m k est ds K f e j Hfd Hm He Hp Hj Ef Ee Hj2 Hr Hf2) as (m1 & k1 & Ea & Ha & Hm1).
  destruct (compose_approx f e m1 k1 ltac:(lia) Ea Ha Hm1 (no_tie f e Hf)) as (m2 & k2 & N & Hr2 & Hc).
  destruct (nearest_unique _ _ _ _ _ _ (dd_pos e) Hr Hr2) as (<- & <-).
  exists text, f, e, w, P, (K - n), n, N. split; auto. split; auto. split.
  - pose proof (dec_shift f (K - n) j ltac:(lia)) as Sh. rewrite <- Ee in Sh. pose proof (pow10_pos j ltac:(lia)) as Pj. rewrite (dn_lin P). rewrite Ef in Sh |- *. apply (Z.mul_cancel_r _ _ (10 ^ j)); [lia|]. rewrite Sh. ring.
  - split; auto. split; [lia|]. split; auto. split; auto. split; auto. intros fuel HN. rewrite (read_real_literal fuel text neg f e w Lit Hw), Hc by auto. cbn [bind]. unfold ldexp_exact. now rewrite (proj2 (Z.ltb_ge 971 k)) by lia.
Qed.
