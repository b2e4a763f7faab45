(** The end of read_real gives the nearest double *)
From Coq Require Import ZArith List Bool Lia.
From Verif Require Import Outcome FloModel FloSpec FloProofs FloProofs2.
Import ListNotations.
Local Open Scope Z_scope.
Ltac Zify.zify_post_hook ::= idtac.

Definition MAXU : Z := (2 ^ 53 - 1) * 2 ^ 2045.
Lemma sv_units m k : sv m k = units m k. Proof. reflexivity. Qed.
Lemma max_double : is_double (2 ^ 53 - 1) 971. Proof. unfold is_double. rewrite p53_val, p52_val. lia. Qed.
Lemma maxu_units : MAXU = units (2 ^ 53 - 1) 971. Proof. reflexivity. Qed.
Lemma finite_le m k : finite_double m k -> units m k <= MAXU.
Proof.
  intros ((A & B & _) & K). unfold units, MAXU. assert (2 ^ (k + 1074) <= 2 ^ 2045) by (apply Z.pow_le_mono_r; lia). pose proof (pow2_pos (k + 1074) ltac:(lia)). set (P := 2 ^ 2045) in *. set (Q := 2 ^ (k + 1074)) in *. clearbody P Q. rewrite p53_val in *. nia.
Qed.
Lemma rnd_fin N D : 0 < D -> 0 <= N -> N <= MAXU * D -> exists m k, rnd N D = Fin m k /\ k <= 971 /\ nearest N D m k.
Proof.
  intros HD HN HM. destruct (rnd_nearest N D HD HN) as (m & k & Hn & E). destruct (Z.ltb_spec 971 k) as [L|L]; [|exists m, k; auto].
  exfalso. pose proof Hn as ((A & B & C) & H). assert (Lt : MAXU < units m k).
  { unfold MAXU, units. replace (k + 1074) with (2045 + (k - 971)) by ring. rewrite (Z.pow_add_r 2 2045 (k - 971)) by lia. assert (2 <= 2 ^ (k - 971)). { change 2 with (2 ^ 1) at 1. apply Z.pow_le_mono_r; lia. } pose proof (pow2_pos 2045 ltac:(lia)) as P. set (Q := 2 ^ 2045) in *. set (W := 2 ^ (k - 971)) in *. clearbody Q W. rewrite p53_val, p52_val in *. assert (4503599627370496 <= m) by lia. assert (9007199254740992 <= m * W) by nia. replace (m * (Q * W)) with (Q * (m * W)) by ring. set (Y := m * W) in *. clearbody Y. nia. }
  specialize (H _ _ max_double). rewrite <- maxu_units in H. destruct (H ltac:(lia)) as (H1 & _). nia.
Qed.
Lemma two52_ulp m k : is_double m k -> 2 ^ 52 * ulp k <= units m k + 2 ^ 52.
Proof. intros (A & B & C). rewrite units_ulp. pose proof (ulp_pos k A). destruct C as [->|C]; [change (ulp (-1074)) with 1 in *; lia|nia]. Qed.
Lemma two52_ulp_normal m k : is_double m k -> 2 ^ 52 <= units m k -> 2 ^ 52 * ulp k <= units m k.
Proof. intros (A & B & C). rewrite units_ulp. pose proof (ulp_pos k A). destruct C as [->|C]; [change (ulp (-1074)) with 1 in *; lia|nia]. Qed.
Lemma gap_le m k : -1074 <= k -> gap_below m k <= ulp k.
Proof.
  intros A. unfold gap_below. destruct ((m =? 2 ^ 52) && (-1074 <? k)) eqn:E; [|lia]. apply andb_prop in E as (_ & E). apply Z.ltb_lt in E. pose proof (ulp_pos (k - 1) ltac:(lia)). pose proof (ulp_S (k - 1) ltac:(lia)) as H1. replace (k - 1 + 1) with k in H1 by ring. lia.
Qed.
Lemma units_nonneg m k : is_double m k -> 0 <= units m k.
Proof. intros (A & B & _). rewrite units_ulp. pose proof (ulp_pos k A). nia. Qed.
Lemma nearest_lo N D m k : 0 < D -> nearest N D m k -> N * (2 ^ 53 - 1) - 2 ^ 52 * D <= units m k * D * 2 ^ 53.
Proof.
  intros HD H. destruct (nearest_upper _ _ _ _ HD H) as (U & _). pose proof H as (Hd & _). pose proof (two52_ulp _ _ Hd) as P. pose proof (units_nonneg _ _ Hd). set (u := units m k) in *. set (w := ulp k) in *. clearbody u w. rewrite p53_val, p52_val in *.
  assert (4503599627370496 * (w * D) <= u * D + 4503599627370496 * D) by nia. set (uD := u * D) in *. replace ((2 * u + w) * D) with (2 * uD + w * D) in U by (unfold uD; ring). set (wD := w * D) in *. assert (0 <= uD) by (unfold uD; nia). clearbody uD wD. lia.
Qed.
Lemma nearest_hi N D m k : 0 < D -> 2 ^ 52 <= units m k -> nearest N D m k -> units m k * D * 2 ^ 53 <= N * (2 ^ 53 + 2).
Proof.
  intros HD Hu H. destruct (nearest_lower _ _ _ _ HD H) as [->|(U & _)]; [rewrite units_ulp, p52_val in Hu; lia|]. pose proof H as (Hd & _). pose proof (two52_ulp_normal _ _ Hd Hu) as P. pose proof (gap_le m k ltac:(apply Hd)) as G. set (u := units m k) in *. set (w := ulp k) in *. set (g := gap_below m k) in *. clearbody u w g. rewrite p53_val, p52_val in *.
  assert (4503599627370496 * (g * D) <= u * D) by nia. set (uD := u * D) in *. replace ((2 * u - g) * D) with (2 * uD - g * D) in U by (unfold uD; ring). set (gD := g * D) in *. assert (0 <= uD) by (unfold uD; nia). clearbody uD gD. lia.
Qed.
Lemma nearest_exact m k : is_double m k -> nearest (units m k) 1 m k.
Proof. intros H. split; auto. intros m' k' H' Ne. rewrite !Z.mul_1_r, Z.sub_diag. change (Z.abs 0) with 0. lia. Qed.
Lemma nearest_ge N D m k m' k' : 0 < D -> nearest N D m k -> is_double m' k' -> units m' k' * D <= N -> units m' k' <= units m k.
Proof. intros HD (H & H2) H' L. destruct (Z.eq_dec (units m' k') (units m k)) as [E|E]; [lia|]. destruct (H2 m' k' H' E) as (A & _). destruct (Z.lt_trichotomy (units m k) (units m' k')) as [L2|[L2|L2]]; [|lia|lia]. nia. Qed.
Lemma nearest_le N D m k m' k' : 0 < D -> nearest N D m k -> is_double m' k' -> N <= units m' k' * D -> units m k <= units m' k'.
Proof. intros HD (H & H2) H' L. destruct (Z.eq_dec (units m' k') (units m k)) as [E|E]; [lia|]. destruct (H2 m' k' H' E) as (A & _). destruct (Z.lt_trichotomy (units m k) (units m' k')) as [L2|[L2|L2]]; [lia|lia|]. nia. Qed.
(** integers below 2^53 are doubles *)
Lemma small_int f : 0 <= f < 2 ^ 53 -> exists m k, finite_double m k /\ units m k = f * 2 ^ 1074.
Proof.
  intros Hf. destruct (Z.eq_dec f 0) as [->|N0]; [exists 0, (-1074); split; [unfold finite_double, is_double; rewrite p53_val; lia|reflexivity]|].
  pose proof (Z.log2_spec f ltac:(lia)) as (L1 & L2). pose proof (Z.log2_nonneg f). assert (Z.log2 f < 53) by (apply Z.log2_lt_pow2; lia).
  exists (f * 2 ^ (52 - Z.log2 f)), (Z.log2 f - 52). split; [split; [split; [lia|]|lia]|].
  - assert (E1 : 2 ^ Z.log2 f * 2 ^ (52 - Z.log2 f) = 2 ^ 52) by (rewrite <- Z.pow_add_r by lia; f_equal; lia).
    assert (E2 : 2 ^ Z.succ (Z.log2 f) * 2 ^ (52 - Z.log2 f) = 2 ^ 53) by (rewrite <- Z.pow_add_r by lia; f_equal; lia).
    pose proof (pow2_pos (52 - Z.log2 f) ltac:(lia)). split; [split; nia|]. right. nia.
  - unfold units. rewrite <- Z.mul_assoc, <- Z.pow_add_r by lia. do 2 f_equal. lia.
Qed.
Lemma int_small f : 0 <= f < 2 ^ 53 -> exists m k, int_to_double f = Fin m k /\ finite_double m k /\ units m k = f * 2 ^ 1074.
Proof.
  intros H. destruct (small_int f H) as (m & k & Hf & E). unfold int_to_double. rewrite <- E. pose proof (finite_le _ _ Hf) as M. destruct Hf as (Hd & K).
  assert (0 <= units m k) by (destruct Hd as (A & B & _); rewrite units_ulp; pose proof (ulp_pos k A); nia).
  destruct (rnd_fin (units m k) 1 ltac:(lia) ltac:(auto) ltac:(lia)) as (m' & k' & E2 & K2 & N2). destruct (nearest_unique _ 1 _ _ _ _ ltac:(lia) N2 (nearest_exact _ _ Hd)) as (-> & ->). exists m, k. repeat split; auto; apply Hd.
Qed.

(** ** raise_pow10 stays finite and does not vanish *)
Lemma mul_pow_up m k n X a : finite_double m k -> 0 <= n -> 2 ^ 53 <= units m k -> 0 <= a < 1000 -> units m k * 2 ^ 53 <= X * (2 ^ 53 + 3 * a) -> X * 10 ^ n * (2 ^ 53 + 3 * a) <= MAXU * 2 ^ 53 ->
  exists m' k', mul_pow (Fin m k) n = Fin m' k' /\ finite_double m' k' /\ units m k <= units m' k' /\ units m' k' * 2 ^ 53 <= X * 10 ^ n * (2 ^ 53 + 3 * (a + 1)).
Proof.
  intros Hf Hn Hu Ha HX HM. cbn [mul_pow]. rewrite sv_units. pose proof (pow10_pos n Hn) as P. set (t := 10 ^ n) in *.
  assert (B : units m k * t <= MAXU * 1). { set (M := MAXU) in *. set (u := units m k) in *. clearbody t M u. rewrite p53_val in *. pose proof (Z.mul_le_mono_nonneg_r _ _ t ltac:(lia) HX) as HXt. replace (X * (9007199254740992 + 3 * a) * t) with (X * t * (9007199254740992 + 3 * a)) in HXt by ring. assert (u * t * 9007199254740992 <= M * 9007199254740992) by lia. lia. }
  destruct (rnd_fin (units m k * t) 1 ltac:(lia) ltac:(rewrite p53_val in *; nia) B) as (m' & k' & E & K & N). exists m', k'. split; auto. split; [split; auto; apply N|].
  assert (G : units m k <= units m' k'). { apply (nearest_ge (units m k * t) 1 m' k' m k); auto; [lia|apply Hf|]. clear HX HM. clearbody t. rewrite p53_val in *. nia. }
  split; auto. pose proof (nearest_hi _ 1 m' k' ltac:(lia) ltac:(rewrite p53_val, p52_val in *; lia) N) as H. set (u := units m k) in *. set (u' := units m' k') in *. clearbody t u u'. rewrite Z.mul_1_r in H. rewrite p53_val in *.
  assert (u * t * 9007199254740992 <= X * t * (9007199254740992 + 3 * a)). { pose proof (Z.mul_le_mono_nonneg_r _ _ t ltac:(lia) HX) as HXt. lia. } set (ut := u * t) in *. set (Xt := X * t) in *. assert (0 <= Xt) by nia. clearbody ut Xt.
  assert (u' * 9007199254740992 * 9007199254740992 <= Xt * (9007199254740992 + 3 * a) * 9007199254740994) by nia. nia.
Qed.
Lemma raise_up_ok : forall fuel m k n X a b, finite_double m k -> 0 <= n <= 22 * b -> 1 <= b -> 2 ^ 53 <= units m k -> 0 <= a -> a + b <= 1000 -> units m k * 2 ^ 53 <= X * (2 ^ 53 + 3 * a) -> X * 10 ^ n * (2 ^ 53 + 3 * (a + b)) <= MAXU * 2 ^ 53 ->
  exists m' k', raise_up fuel (Fin m k) n = Fin m' k' /\ finite_double m' k' /\ 2 ^ 53 <= units m' k'.
Proof.
  induction fuel as [|fuel IH]; intros m k n X a b Hf Hn Hb Hu Ha Hab HX HM; [exists m, k; auto|]. cbn [raise_up].
  assert (X0 : 0 < X) by (rewrite p53_val in *; nia).
  assert (Mono : forall p, p <= n -> 0 <= p -> X * 10 ^ p * (2 ^ 53 + 3 * a) <= MAXU * 2 ^ 53).
  { intros p Hp Hp0. assert (10 ^ p <= 10 ^ n) by (apply Z.pow_le_mono_r; lia). pose proof (pow10_pos p Hp0). rewrite p53_val in *. set (M := MAXU) in *. clearbody M. set (t := 10 ^ p) in *. set (t' := 10 ^ n) in *. clearbody t t'. assert (X * t <= X * t') by nia. assert (0 <= X * t) by nia. nia. }
  destruct (Z.ltb_spec 22 n) as [L|L].
  - destruct (mul_pow_up m k 22 X a Hf ltac:(lia) Hu ltac:(lia) HX (Mono 22 ltac:(lia) ltac:(lia))) as (m' & k' & E & Hf' & G & HX'). rewrite E. apply (IH m' k' (n - 22) (X * 10 ^ 22) (a + 1) (b - 1)); auto; try lia.
    replace (X * 10 ^ 22 * 10 ^ (n - 22)) with (X * 10 ^ n) by (rewrite <- Z.mul_assoc, <- Z.pow_add_r by lia; do 2 f_equal; ring). replace (a + 1 + (b - 1)) with (a + b) by ring. exact HM.
  - destruct (mul_pow_up m k n X a Hf ltac:(lia) Hu ltac:(lia) HX (Mono n ltac:(lia) ltac:(lia))) as (m' & k' & E & Hf' & G & HX'). exists m', k'. split; auto. split; auto. lia.
Qed.
Lemma div_pow_ok m k n X Y a : finite_double m k -> 1 <= n -> 0 <= a < 1000 -> 0 < Y -> 0 <= X -> X * (2 ^ 53 - a) - Y * 2 ^ 53 <= units m k * Y * 2 ^ 53 ->
  exists m' k', div_pow (Fin m k) n = Fin m' k' /\ finite_double m' k' /\ X * (2 ^ 53 - (a + 1)) - Y * 10 ^ n * 2 ^ 53 <= units m' k' * (Y * 10 ^ n) * 2 ^ 53.
Proof.
  intros Hf Hn Ha HY HX H. cbn [div_pow]. rewrite sv_units.
  assert (P10 : 10 <= 10 ^ n). { change 10 with (10 ^ 1) at 1. apply Z.pow_le_mono_r; lia. }
  set (t := 10 ^ n) in *. pose proof (finite_le _ _ Hf) as M. pose proof (units_nonneg _ _ (proj1 Hf)) as U0.
  destruct (rnd_fin (units m k) t ltac:(lia) U0) as (m' & k' & E & K & N). { set (MM := MAXU) in *. clearbody MM t. nia. }
  exists m', k'. split; auto. split; [split; auto; apply N|]. pose proof (nearest_lo _ t _ _ ltac:(lia) N) as L. set (u := units m k) in *. set (u' := units m' k') in *. clearbody t u u'. rewrite p53_val, p52_val in *.
  assert (L' : (u * 9007199254740991 - 4503599627370496 * t) * Y <= u' * (Y * t) * 9007199254740992). { pose proof (Z.mul_le_mono_nonneg_r _ _ Y ltac:(lia) L) as Q. lia. }
  set (V := u' * (Y * t)) in *. clearbody V. set (uY := u * Y) in *. set (tY := Y * t) in *. replace ((u * 9007199254740991 - 4503599627370496 * t) * Y) with (uY * 9007199254740991 - 4503599627370496 * tY) in L' by (unfold uY, tY; ring).
  assert (10 * Y <= tY) by (unfold tY; nia). clearbody uY tY. assert (X * a <= X * 1000) by nia. set (Xa := X * a) in *. replace (X * (9007199254740992 - a)) with (9007199254740992 * X - Xa) in H by (unfold Xa; ring). replace (X * (9007199254740992 - (a + 1))) with (9007199254740992 * X - Xa - X) by (unfold Xa; ring). assert (0 <= Xa) by (unfold Xa; nia). clearbody Xa. lia.
Qed.
Lemma raise_down_ok : forall fuel m k n X Y a b, finite_double m k -> 1 <= - n <= 22 * b -> 1 <= b -> (Z.to_nat (- n) <= fuel)%nat -> 0 <= a -> a + b <= 1000 -> 0 < Y -> 0 <= X -> X * (2 ^ 53 - a) - Y * 2 ^ 53 <= units m k * Y * 2 ^ 53 ->
  exists m' k', raise_down fuel (Fin m k) n = Fin m' k' /\ finite_double m' k' /\ X * (2 ^ 53 - (a + b)) - Y * 10 ^ (- n) * 2 ^ 53 <= units m' k' * (Y * 10 ^ (- n)) * 2 ^ 53.
Proof.
  induction fuel as [|fuel IH]; intros m k n X Y a b Hf Hn Hb Hfu Ha Hab HY HX H; [lia|]. cbn [raise_down].
  destruct (Z.ltb_spec n (-22)) as [L|L].
  - destruct (div_pow_ok m k 22 X Y a Hf ltac:(lia) ltac:(lia) HY HX H) as (m' & k' & E & Hf' & G). rewrite E. pose proof (pow10_pos 22 ltac:(lia)) as P.
    destruct (IH m' k' (n + 22) X (Y * 10 ^ 22) (a + 1) (b - 1)) as (m2 & k2 & E2 & Hf2 & G2); auto; try lia. exists m2, k2. split; auto. split; auto.
    replace (Y * 10 ^ 22 * 10 ^ (- (n + 22))) with (Y * 10 ^ (- n)) in G2 by (rewrite <- Z.mul_assoc, <- Z.pow_add_r by lia; do 2 f_equal; ring). replace (a + 1 + (b - 1)) with (a + b) in G2 by ring. exact G2.
  - destruct (div_pow_ok m k (- n) X Y a Hf ltac:(lia) ltac:(lia) HY HX H) as (m' & k' & E & Hf' & G). exists m', k'. split; auto. split; auto.
    assert (X * (2 ^ 53 - (a + b)) <= X * (2 ^ 53 - (a + 1))) by nia. lia.
Qed.
(** ** The end of read_real *)
Lemma le_mul1 f p q : 1 <= f -> 0 <= p -> q <= p -> q <= f * p. Proof. nia. Qed.
Lemma le_mulr a b t : 0 <= t -> a <= b -> a * t <= b * t. Proof. nia. Qed.

(** from 5e-324 to the greatest double less 48 parts in 2^53 *)
Definition low_ok (f e : Z) : Prop := 5 * 10 ^ Z.max (- e - 324) 0 <= f * 10 ^ Z.max (e + 324) 0.
Definition high_ok (f e : Z) : Prop := dec_num f e * (2 ^ 53 + 48) <= MAXU * 2 ^ 53 * dec_den e.
Lemma int_ok f : 0 < f < 10 ^ 308 -> exists m k, int_to_double f = Fin m k /\ finite_double m k /\ 2 ^ 53 <= units m k /\
  units m k * 2 ^ 53 <= f * 2 ^ 1074 * (2 ^ 53 + 2) /\ f * 2 ^ 1074 * (2 ^ 53 - 1) - 2 ^ 52 <= units m k * 2 ^ 53.
Proof.
  intros Hf. unfold int_to_double. assert (M : 10 ^ 308 * 2 ^ 1074 <= MAXU) by (apply Z.leb_le; vm_compute; reflexivity). pose proof (pow2_pos 1074 ltac:(lia)) as P.
  destruct (rnd_fin (f * 2 ^ 1074) 1) as (m & k & E & K & N); [lia|nia|set (t := 2 ^ 1074) in *; set (MM := MAXU) in *; set (c := 10 ^ 308) in *; clearbody t MM c; nia|]. exists m, k. split; auto. split; [split; auto; apply N|].
  assert (B : 2 ^ 53 <= units m k). { assert (units (2 ^ 52) (-52) <= units m k). { apply (nearest_ge (f * 2 ^ 1074) 1 m k (2 ^ 52) (-52) ltac:(lia) N); [unfold is_double; rewrite p53_val, p52_val; lia|]. change (units (2 ^ 52) (-52)) with (2 ^ 1074). nia. } change (units (2 ^ 52) (-52)) with (2 ^ 1074) in H. assert (2 ^ 53 <= 2 ^ 1074) by (apply Z.pow_le_mono_r; lia). lia. }
  split; auto. split.
  - pose proof (nearest_hi _ 1 m k ltac:(lia) ltac:(rewrite p53_val, p52_val in *; lia) N) as H. lia.
  - pose proof (nearest_lo _ 1 m k ltac:(lia) N) as H. lia.
Qed.
Lemma approx_up f e : 0 < f < 10 ^ 308 -> 0 <= e -> high_ok f e -> exists m k, approximate f e = Fin m k /\ finite_double m k /\ 0 < m.
Proof.
  intros Hf He HH. destruct (int_ok f Hf) as (m & k & E & Hd & B & U & _). unfold approximate. rewrite E. unfold raise_pow10. rewrite (proj2 (Z.leb_le 0 e)) by auto.
  unfold high_ok, dec_num, dec_den in HH. rewrite Z.max_l, (Z.max_r (- e)) in HH by lia. rewrite Z.pow_0_r, Z.mul_1_r in HH.
  assert (He2 : e <= 330). { apply Z.le_ngt. intros L. assert (Hp : 10 ^ 331 <= 10 ^ e) by (apply Z.pow_le_mono_r; lia). pose proof (pow10_pos e He) as Pp. assert (Q : MAXU * 2 ^ 53 < 10 ^ 331 * 2 ^ 1074 * (2 ^ 53 + 48)) by (apply Z.ltb_lt; vm_compute; reflexivity). pose proof (pow2_pos 1074 ltac:(lia)) as Pt. pose proof (le_mul1 f _ _ ltac:(lia) ltac:(lia) Hp) as Q1. pose proof (le_mulr _ _ (2 ^ 1074) ltac:(lia) Q1) as Q2. pose proof (le_mulr _ _ (2 ^ 53 + 48) ltac:(rewrite p53_val; lia) Q2) as Q3. clear - HH Q Q3. lia. }
  destruct (raise_up_ok (S (Z.to_nat e)) m k e (f * 2 ^ 1074) 1 15) as (m' & k' & E2 & Hd2 & B2); auto; try lia.
  exists m', k'. split; auto. split; auto. destruct Hd2 as ((A & ? & _) & _). rewrite units_ulp in B2. pose proof (ulp_pos k' A). rewrite p53_val in *. nia.
Qed.
Lemma approx_down f e : 0 < f < 10 ^ 308 -> e < 0 -> low_ok f e -> exists m k, approximate f e = Fin m k /\ finite_double m k /\ 0 < m.
Proof.
  intros Hf He HL. destruct (int_ok f Hf) as (m & k & E & Hd & B & _ & U). unfold approximate. rewrite E. unfold raise_pow10. rewrite (proj2 (Z.leb_gt 0 e)) by auto. unfold low_ok in HL.
  assert (He2 : - e <= 638). { apply Z.le_ngt. intros L. rewrite Z.max_l, Z.max_r in HL by lia. rewrite Z.pow_0_r, Z.mul_1_r in HL. assert (10 ^ 308 <= 10 ^ (- e - 324)) by (apply Z.pow_le_mono_r; lia). lia. }
  pose proof (pow2_pos 1074 ltac:(lia)) as P.
  destruct (raise_down_ok (S (Z.to_nat (- e))) m k e (f * 2 ^ 1074) 1 1 29) as (m' & k' & E2 & Hd2 & B2); auto; try lia.
  exists m', k'. split; auto. split; auto. rewrite Z.mul_1_l in B2. change (2 ^ 53 - (1 + 29)) with (2 ^ 53 - 30) in B2.
  assert (G : 10 ^ (- e) * 2 ^ 53 < f * 2 ^ 1074 * (2 ^ 53 - 30)).
  { destruct (Z.le_gt_cases 324 (- e)) as [L|L].
    - rewrite Z.max_l, Z.max_r in HL by lia. rewrite Z.pow_0_r, Z.mul_1_r in HL. replace (10 ^ (- e)) with (10 ^ (- e - 324) * 10 ^ 324) by (rewrite <- Z.pow_add_r by lia; f_equal; ring). pose proof (pow10_pos (- e - 324) ltac:(lia)) as P2.
      assert (Q : 10 ^ 324 * 2 ^ 53 < 5 * 2 ^ 1074 * (2 ^ 53 - 30)) by (apply Z.ltb_lt; vm_compute; reflexivity). set (t := 2 ^ 1074) in *. set (p := 10 ^ (- e - 324)) in *. set (p0 := 10 ^ 324) in *. clear Hf E E2 Hd Hd2 B2 B U. clearbody t p p0. rewrite p53_val in *.
      pose proof (proj1 (Z.mul_lt_mono_pos_l p _ _ P2) Q) as Q2. pose proof (le_mulr _ _ (t * 9007199254740962) ltac:(lia) HL) as Q3. clear - Q2 Q3. lia.
    - assert (10 ^ (- e) <= 10 ^ 323) by (apply Z.pow_le_mono_r; lia). assert (Q : 10 ^ 323 * 2 ^ 53 < 2 ^ 1074 * (2 ^ 53 - 30)) by (apply Z.ltb_lt; vm_compute; reflexivity). set (t := 2 ^ 1074) in *. set (p := 10 ^ (- e)) in *. set (p0 := 10 ^ 323) in *. assert (1 <= f) by lia. clear Hf E E2 Hd Hd2 B2 B U HL. clearbody t p p0. rewrite p53_val in *. pose proof (le_mul1 f t t ltac:(lia) ltac:(lia) ltac:(lia)). lia. }
  assert (0 < units m' k' * 10 ^ (- e) * 2 ^ 53) by lia. destruct (Z.eq_dec m' 0) as [->|Ne]; [rewrite units_ulp in H; lia|]. destruct Hd2 as ((_ & ? & _) & _). lia.
Qed.
Lemma fast_path f e : 0 <= f <= 2 ^ 52 -> -22 <= e <= 22 -> exists m k, approximate f e = Fin m k /\ finite_double m k /\ reads_as f e m k.
Proof.
  intros Hf He. destruct (int_small f ltac:(rewrite p53_val, p52_val in *; lia)) as (m & k & E & Hd & U). unfold approximate. rewrite E. unfold raise_pow10, reads_as, dec_num, dec_den.
  assert (M : 2 ^ 52 * 10 ^ 22 * 2 ^ 1074 <= MAXU) by (apply Z.leb_le; vm_compute; reflexivity). pose proof (pow2_pos 1074 ltac:(lia)) as P.
  destruct (Z.leb_spec 0 e) as [L|L].
  - cbn [raise_up]. rewrite (proj2 (Z.ltb_ge 22 e)) by lia. cbn [mul_pow]. rewrite sv_units, U, Z.max_l, Z.max_r, Z.pow_0_r by lia. replace (f * 2 ^ 1074 * 10 ^ e) with (f * 10 ^ e * 2 ^ 1074) by ring.
    assert (10 ^ e <= 10 ^ 22) by (apply Z.pow_le_mono_r; lia). pose proof (pow10_pos e L).
    destruct (rnd_fin (f * 10 ^ e * 2 ^ 1074) 1) as (m' & k' & E2 & K & N); [lia|nia| |exists m', k'; split; auto; split; [split; auto; apply N|auto]].
    set (t := 2 ^ 1074) in *. set (p := 10 ^ e) in *. set (MM := MAXU) in *. set (p0 := 10 ^ 22) in *. clear U E. clearbody t p p0 MM. rewrite p52_val in *. assert (f * p <= 4503599627370496 * p0) by nia. nia.
  - cbn [raise_down]. rewrite (proj2 (Z.ltb_ge e (-22))) by lia. cbn [div_pow]. rewrite sv_units, U, Z.max_r, Z.max_l, Z.pow_0_r, Z.mul_1_r by lia. pose proof (pow10_pos (- e) ltac:(lia)).
    destruct (rnd_fin (f * 2 ^ 1074) (10 ^ (- e))) as (m' & k' & E2 & K & N); [lia|nia| |exists m', k'; split; auto; split; [split; auto; apply N|auto]].
    assert (f * 2 ^ 1074 <= MAXU). { assert (2 ^ 52 * 2 ^ 1074 <= MAXU) by (apply Z.leb_le; vm_compute; reflexivity). set (t := 2 ^ 1074) in *. set (MM := MAXU) in *. clear U E. clearbody t MM. rewrite p52_val in *. nia. }
    set (MM := MAXU) in *. set (p := 10 ^ (- e)) in *. set (F := f * 2 ^ 1074) in *. assert (0 <= F) by (unfold F; nia). clearbody MM p F. nia.
Qed.
Lemma compose_ok f e : 0 < f < 10 ^ 308 -> low_ok f e -> high_ok f e -> 2 * dec_num f e <> (2 ^ 53 - 1) * dec_den e ->
  exists m k n, reads_as f e m k /\ forall fuel, (n <= fuel)%nat -> compose fuel f e = Ok (ldexp_exact m k).
Proof.
  intros Hf HL HH NT. assert (A : exists m k, approximate f e = Fin m k /\ finite_double m k /\ 0 < m). { destruct (Z.le_gt_cases 0 e); [apply approx_up|apply approx_down]; auto. }
  destruct A as (m & k & E & Hd & Hm). unfold compose. rewrite E. rewrite (proj2 (Z.ltb_lt 0 m)) by auto. cbn [andb].
  destruct ((p52 <? f) || (22 <? e) || (e <? -22)) eqn:C.
  - apply (algorithmR_ok f e ltac:(lia) NT m k); auto. apply Hd.
  - apply orb_false_elim in C as (C & C3). apply orb_false_elim in C as (C1 & C2). apply Z.ltb_ge in C1, C2, C3. unfold p52 in C1.
    destruct (fast_path f e ltac:(lia) ltac:(lia)) as (m' & k' & E2 & Hd2 & R). rewrite E in E2. injection E2 as -> ->. exists m', k', 0%nat. split; auto. intros. unfold ldexp_exact. destruct Hd2 as (_ & K). now rewrite (proj2 (Z.ltb_ge 971 k')) by lia.
Qed.
