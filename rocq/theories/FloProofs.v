(** Doubles: gaps, nearest by local conditions, rounding *)
From Coq Require Import ZArith List Bool Lia.
From Verif Require Import Outcome FloModel FloSpec.
Import ListNotations.
Local Open Scope Z_scope.
Ltac Zify.zify_post_hook ::= idtac.

Lemma p52_val : 2 ^ 52 = 4503599627370496. Proof. reflexivity. Qed.
Lemma p53_val : 2 ^ 53 = 9007199254740992. Proof. reflexivity. Qed.
Lemma pow2_pos k : 0 <= k -> 0 < 2 ^ k. Proof. intros. apply Z.pow_pos_nonneg; lia. Qed.
Lemma pow10_pos k : 0 <= k -> 0 < 10 ^ k. Proof. intros. apply Z.pow_pos_nonneg; lia. Qed.
(** the unit in the last place *)
Definition ulp (k : Z) : Z := 2 ^ (k + 1074).
Lemma ulp_pos k : -1074 <= k -> 0 < ulp k. Proof. intros. apply pow2_pos. lia. Qed.
Lemma units_ulp m k : units m k = m * ulp k. Proof. reflexivity. Qed.
Lemma ulp_S k : -1074 <= k -> ulp (k + 1) = 2 * ulp k.
Proof. intros. unfold ulp. replace (k + 1 + 1074) with (Z.succ (k + 1074)) by lia. rewrite Z.pow_succ_r by lia. lia. Qed.
Lemma ulp_split k k' : -1074 <= k -> k <= k' -> exists c, 1 <= c /\ ulp k' = c * ulp k /\ (k < k' -> 2 <= c) /\ (k + 1 < k' -> 4 <= c).
Proof.
  intros H1 H2. exists (2 ^ (k' - k)). pose proof (pow2_pos (k' - k) ltac:(lia)). split; [lia|]. split.
  - unfold ulp. rewrite <- Z.pow_add_r by lia. f_equal. lia.
  - split; intros.
    + pose proof (Z.pow_le_mono_r 2 1 (k' - k)). lia.
    + pose proof (Z.pow_le_mono_r 2 2 (k' - k)). change (2 ^ 2) with 4 in *. lia.
Qed.
(** comparing multiples of a unit *)
Lemma mul_lt_le a b u : 0 < u -> a * u < b * u -> (a + 1) * u <= b * u. Proof. intros P H. apply Z.mul_lt_mono_pos_r in H; [|auto]. nia. Qed.
Lemma gap_above m k m' k' : is_double m k -> is_double m' k' -> units m k < units m' k' -> units m k + ulp k <= units m' k'.
Proof.
  intros (A1 & A2 & A3) (B1 & B2 & B3) H. rewrite !units_ulp in *. rewrite p53_val, p52_val in *. pose proof (ulp_pos k A1). pose proof (ulp_pos k' B1).
  destruct (Z.le_gt_cases k k') as [L|L].
  - destruct (ulp_split k k' A1 L) as (c & C1 & C2 & _). rewrite C2 in *. rewrite Z.mul_assoc in *. pose proof (mul_lt_le _ _ _ H0 H). lia.
  - exfalso. destruct (ulp_split k' k B1 ltac:(lia)) as (c & C1 & C2 & C3 & _). rewrite C2 in *. specialize (C3 ltac:(lia)). destruct A3 as [A3|A3]; [lia|]. rewrite Z.mul_assoc in *. apply Z.mul_lt_mono_pos_r in H; [|auto]. nia.
Qed.
(** the gap below: half at a power of two *)
Definition gap_below (m k : Z) : Z := if (m =? 2 ^ 52) && (-1074 <? k) then ulp (k - 1) else ulp k.
Lemma gap_below_ok m k m' k' : is_double m k -> is_double m' k' -> units m' k' < units m k -> units m' k' + gap_below m k <= units m k.
Proof.
  intros (A1 & A2 & A3) (B1 & B2 & B3) H. unfold gap_below. rewrite !units_ulp in *. rewrite p53_val, p52_val in *. pose proof (ulp_pos k A1) as P. pose proof (ulp_pos k' B1) as P'.
  destruct (Z.eqb_spec m 4503599627370496) as [E|E]; cbn [andb]; [destruct (Z.ltb_spec (-1074) k) as [L0|L0]|].
  - pose proof (ulp_S (k - 1) ltac:(lia)) as U. replace (k - 1 + 1) with k in U by lia. pose proof (ulp_pos (k - 1) ltac:(lia)) as P1. subst m.
    destruct (Z.le_gt_cases (k - 1) k') as [L|L].
    + destruct (ulp_split (k - 1) k' ltac:(lia) L) as (c & C1 & C2 & _). rewrite C2, U in *. rewrite !Z.mul_assoc in *. pose proof (mul_lt_le _ _ _ P1 H). lia.
    + destruct (ulp_split k' (k - 1) B1 ltac:(lia)) as (c & C1 & C2 & C3 & _). specialize (C3 ltac:(lia)). rewrite U, C2 in *. clear - B2 C3 P'. assert (m' * ulp k' <= 9007199254740991 * ulp k') by (apply Z.mul_le_mono_nonneg_r; lia). nia.
  - assert (k = -1074) by lia. subst. destruct (ulp_split (-1074) k' ltac:(lia) ltac:(lia)) as (c & C1 & C2 & _). rewrite C2 in *. rewrite !Z.mul_assoc in *. pose proof (mul_lt_le _ _ _ P H). lia.
  - destruct (Z.le_gt_cases k k') as [L|L].
    + destruct (ulp_split k k' A1 L) as (c & C1 & C2 & _). rewrite C2 in *. rewrite !Z.mul_assoc in *. pose proof (mul_lt_le _ _ _ P H). lia.
    + destruct (ulp_split k' k B1 ltac:(lia)) as (c & C1 & C2 & C3 & _). specialize (C3 ltac:(lia)). destruct A3 as [A3|A3]; [lia|]. rewrite C2 in *. clear - B2 C3 P' A3 E. assert (m' * ulp k' <= 9007199254740991 * ulp k') by (apply Z.mul_le_mono_nonneg_r; lia). assert (4503599627370497 * (c * ulp k') <= m * (c * ulp k')) by (apply Z.mul_le_mono_nonneg_r; nia). nia.
Qed.
Lemma gap_below_pos m k : -1074 <= k -> 0 < gap_below m k.
Proof. intros. unfold gap_below. destruct (m =? 2 ^ 52); cbn [andb]; [destruct (Z.ltb_spec (-1074) k)|]; apply ulp_pos; lia. Qed.

(** the two sides of being nearest *)
Definition upper_ok (N D m k : Z) : Prop := 2 * N <= (2 * units m k + ulp k) * D /\ (2 * N = (2 * units m k + ulp k) * D -> Z.even m = true).
Definition lower_ok (N D m k : Z) : Prop :=
  m = 0 \/ ((2 * units m k - gap_below m k) * D <= 2 * N /\ ((2 * units m k - gap_below m k) * D = 2 * N -> Z.even m = true)).
Lemma nearest_local N D m k : 0 < D -> 0 <= N -> is_double m k -> upper_ok N D m k -> lower_ok N D m k -> nearest N D m k.
Proof.
  intros HD HN Hd (U1 & U2) L. split; auto. intros m' k' Hd' Ne. pose proof Hd as (A1 & A2 & A3). pose proof (ulp_pos k A1). pose proof (gap_below_pos m k A1).
  destruct (Z.lt_trichotomy (units m k) (units m' k')) as [Lt|[Eq|Gt]]; [|congruence|].
  - pose proof (gap_above _ _ _ _ Hd Hd' Lt) as G. set (v := units m k) in *. set (v' := units m' k') in *.
    assert (X : (v + ulp k) * D <= v' * D) by nia.
    destruct (Z.le_gt_cases N (v * D)).
    + split; [nia|]. intros. exfalso. nia.
    + split; [nia|]. intros. apply U2. nia.
  - destruct L as [->|(L1 & L2)].
    { exfalso. destruct Hd' as (B1 & B2 & B3). rewrite !units_ulp in Gt. pose proof (ulp_pos k' B1). nia. }
    pose proof (gap_below_ok _ _ _ _ Hd Hd' Gt) as G. set (v := units m k) in *. set (v' := units m' k') in *. set (g := gap_below m k) in *.
    assert (X : (v' + g) * D <= v * D) by nia.
    destruct (Z.le_gt_cases (v * D) N).
    + split; [nia|]. intros. exfalso. nia.
    + split; [nia|]. intros. apply L2. nia.
Qed.
(** the neighbours *)
Lemma next_double m k : is_double m k -> exists m' k', is_double m' k' /\ units m' k' = units m k + ulp k.
Proof.
  intros (A1 & A2 & A3). rewrite p53_val, p52_val in *. destruct (Z.eq_dec m 9007199254740991) as [E|E].
  - exists (2 ^ 52), (k + 1). split; [split; [lia|]; rewrite p53_val, p52_val; lia|]. rewrite !units_ulp, ulp_S by auto. subst m. rewrite p52_val. lia.
  - exists (m + 1), k. split; [split; [lia|]; rewrite p53_val, p52_val; lia|]. rewrite !units_ulp. lia.
Qed.
Lemma prev_double m k : is_double m k -> m <> 0 -> exists m' k', is_double m' k' /\ units m' k' = units m k - gap_below m k.
Proof.
  intros (A1 & A2 & A3) N. unfold gap_below. rewrite p53_val, p52_val in *. destruct (Z.eqb_spec m 4503599627370496) as [E|E]; cbn [andb]; [destruct (Z.ltb_spec (-1074) k) as [L0|L0]|].
  - exists 9007199254740991, (k - 1). split; [split; [lia|]; rewrite p53_val, p52_val; lia|]. pose proof (ulp_S (k - 1) ltac:(lia)) as U. replace (k - 1 + 1) with k in U by lia. rewrite !units_ulp, U. subst m. lia.
  - exists (m - 1), k. split; [split; [lia|]; rewrite p53_val, p52_val; lia|]. rewrite !units_ulp. lia.
  - exists (m - 1), k. split; [split; [lia|]; rewrite p53_val, p52_val; lia|]. rewrite !units_ulp. lia.
Qed.
(** and conversely *)
Lemma nearest_upper N D m k : 0 < D -> nearest N D m k -> upper_ok N D m k.
Proof.
  intros HD (Hd & H). pose proof Hd as (A1 & _). pose proof (ulp_pos k A1). destruct (next_double m k Hd) as (m' & k' & Hd' & E). destruct (H m' k' Hd' ltac:(lia)) as (X & Y). rewrite E in *.
  set (v := units m k) in *. split; [nia|]. intros. apply Y. nia.
Qed.
Lemma nearest_lower N D m k : 0 < D -> nearest N D m k -> lower_ok N D m k.
Proof.
  intros HD (Hd & H). destruct (Z.eq_dec m 0) as [E0|N0]; [now left|]. right. pose proof Hd as (A1 & _). pose proof (gap_below_pos m k A1). destruct (prev_double m k Hd N0) as (m' & k' & Hd' & E). destruct (H m' k' Hd' ltac:(lia)) as (X & Y). rewrite E in *.
  set (v := units m k) in *. set (g := gap_below m k) in *. split; [nia|]. intros. apply Y. nia.
Qed.
Lemma units_inj m k m' k' : is_double m k -> is_double m' k' -> units m k = units m' k' -> m = m' /\ k = k'.
Proof.
  intros (A1 & A2 & A3) (B1 & B2 & B3) E. rewrite !units_ulp in E. rewrite p53_val, p52_val in *. pose proof (ulp_pos k A1). pose proof (ulp_pos k' B1).
  destruct (Z.lt_trichotomy k k') as [L|[L|L]].
  - destruct (ulp_split k k' A1 ltac:(lia)) as (c & C1 & C2 & C3 & _). specialize (C3 L). rewrite C2 in *. exfalso. destruct B3; [lia|]. nia.
  - subst. split; auto. nia.
  - destruct (ulp_split k' k B1 ltac:(lia)) as (c & C1 & C2 & C3 & _). specialize (C3 L). rewrite C2 in *. exfalso. destruct A3; [lia|]. nia.
Qed.
Lemma nearest_unique N D m k m' k' : 0 < D -> nearest N D m k -> nearest N D m' k' -> m = m' /\ k = k'.
Proof.
  intros HD (Hd & H) (Hd' & H'). destruct (Z.eq_dec (units m k) (units m' k')) as [E|E]; [now apply units_inj|]. exfalso.
  destruct (H m' k' Hd' ltac:(auto)) as (X & Y). destruct (H' m k Hd ltac:(auto)) as (X' & Y'). assert (Eq : Z.abs (units m k * D - N) = Z.abs (units m' k' * D - N)) by lia. specialize (Y Eq). specialize (Y' ltac:(lia)).
  (* two neighbours at the same distance have different parity *)
  assert (W : forall m k m' k', is_double m k -> is_double m' k' -> units m k < units m' k' -> nearest N D m k -> nearest N D m' k' -> Z.even m = true -> Z.even m' = true -> Z.abs (units m k * D - N) = Z.abs (units m' k' * D - N) -> False).
  { clear - HD. intros m k m' k' Hd Hd' L Hn Hn' Ev Ev' Eq. destruct (nearest_upper _ _ _ _ HD Hn) as (U & _). pose proof (gap_above _ _ _ _ Hd Hd' L) as G. pose proof Hd as (A1 & A2 & A3). pose proof (ulp_pos k A1).
    assert (E : units m' k' = units m k + ulp k) by nia. destruct Hd' as (B1 & B2 & B3). rewrite !units_ulp in *. rewrite p53_val, p52_val in *. pose proof (ulp_pos k' B1).
    destruct (Z.lt_trichotomy k k') as [Lk|[Lk|Lk]].
    - destruct (ulp_split k k' A1 ltac:(lia)) as (c & C1 & C2 & C3 & _). specialize (C3 Lk). rewrite C2 in *. destruct B3 as [B3|B3]; [lia|]. assert (m' * c = m + 1) by nia. apply Z.even_spec in Ev as (a & ->). nia.
    - subst k'. assert (m' = m + 1) by nia. subst. rewrite Z.even_add, Ev in Ev'. discriminate.
    - destruct (ulp_split k' k B1 ltac:(lia)) as (c & C1 & C2 & C3 & _). specialize (C3 Lk). rewrite C2 in *. destruct A3; [lia|]. nia. }
  destruct (Z.lt_trichotomy (units m k) (units m' k')) as [L|[L|L]]; [| contradiction|].
  - eapply (W m k m' k'); eauto; split; auto.
  - eapply (W m' k' m k); eauto; try (split; auto); try lia.
Qed.
Lemma nearest_scale c N D m k : 0 < c -> nearest (c * N) (c * D) m k <-> nearest N D m k.
Proof.
  intros Hc. assert (E : forall v, Z.abs (v * (c * D) - c * N) = c * Z.abs (v * D - N)). { intros v. replace (v * (c * D) - c * N) with (c * (v * D - N)) by ring. rewrite Z.abs_mul. f_equal. lia. }
  split; intros (Hd & H); split; auto; intros m' k' Hd' Ne; destruct (H m' k' Hd' Ne) as (X & Y); rewrite !E in *; split; try nia; intros Q; apply Y; nia.
Qed.

(** ** rnd *)
Lemma rnd_nearest N D : 0 < D -> 0 <= N -> exists m k, nearest N D m k /\ rnd N D = if 971 <? k then Inf else Fin m k.
Proof.
  intros HD HN. unfold rnd. set (q := N / D). set (j := if q <? p53 then 0 else Z.log2 q - 52). unfold p53, p52 in *.
  assert (Hq : 0 <= q) by (apply Z.div_pos; lia). assert (Eq : D * q <= N < D * q + D) by (unfold q; pose proof (Z.div_mod N D ltac:(lia)); pose proof (Z.mod_pos_bound N D ltac:(lia)); lia).
  assert (Hj : 0 <= j /\ q < 2 ^ 53 * 2 ^ j /\ (j = 0 \/ 2 ^ 52 * 2 ^ j <= q)).
  { unfold j. destruct (Z.ltb_spec q (2 ^ 53)) as [L|L]; [rewrite Z.pow_0_r; lia|]. pose proof (Z.log2_spec q ltac:(rewrite p53_val in L; lia)) as (X & Y). assert (53 <= Z.log2 q) by (apply Z.log2_le_pow2; [rewrite p53_val in L; lia|lia]).
    split; [lia|]. rewrite <- !Z.pow_add_r by lia. replace (53 + (Z.log2 q - 52)) with (Z.succ (Z.log2 q)) by lia. replace (52 + (Z.log2 q - 52)) with (Z.log2 q) by lia. auto. }
  destruct Hj as (J1 & J2 & J3). clearbody j. pose proof (pow2_pos j J1) as Pj. set (D' := D * 2 ^ j). assert (HD' : 0 < D') by (unfold D'; nia).
  set (m := N / D'). set (r := N mod D'). assert (Em : N = D' * m + r) by (apply Z.div_mod; lia). assert (Hr : 0 <= r < D') by (apply Z.mod_pos_bound; lia).
  rewrite p53_val, p52_val in *.
  assert (Bm : 0 <= m < 9007199254740992) by (unfold D' in *; nia).
  assert (Bm' : j = 0 \/ 4503599627370496 <= m). { destruct J3 as [J3|J3]; [now left|right]. unfold D' in *. nia. }
  assert (Dd : is_double m (j - 1074)). { split; [lia|]. rewrite p53_val, p52_val. split; [lia|]. destruct Bm'; [left; lia|auto]. }
  assert (Ul : ulp (j - 1074) = 2 ^ j) by (unfold ulp; f_equal; lia).
  assert (Uv : units m (j - 1074) * D = D' * m) by (rewrite units_ulp, Ul; unfold D'; ring).
  assert (UD : ulp (j - 1074) * D = D') by (rewrite Ul; unfold D'; ring).
  set (up := (D' <? 2 * r) || ((2 * r =? D') && Z.odd m)). destruct up eqn:Up.
  - (* up *) assert (Hup : D' < 2 * r \/ 2 * r = D' /\ Z.odd m = true). { unfold up in Up. apply orb_prop in Up as [U|U]; [left; now apply Z.ltb_lt|right]. apply andb_prop in U as (U & O). apply Z.eqb_eq in U. auto. }
    assert (Mc : exists m' k', (if m + 1 =? 9007199254740992 then (4503599627370496, j + 1) else (m + 1, j)) = (m', k' + 1074) /\ is_double m' k' /\ units m' k' = units m (j - 1074) + ulp (j - 1074) /\ (2 * r = D' -> Z.even m' = true) /\ gap_below m' k' = ulp (j - 1074) /\ ulp (j - 1074) <= ulp k').
    { pose proof (ulp_pos (j - 1074) ltac:(lia)) as Pu. destruct (Z.eqb_spec (m + 1) 9007199254740992) as [E|E].
      - exists 4503599627370496, (j - 1074 + 1). split; [f_equal; lia|]. split; [split; [lia|]; rewrite p53_val, p52_val; lia|]. rewrite !units_ulp, ulp_S by lia. split; [lia|]. split; [reflexivity|]. unfold gap_below. rewrite p52_val, Z.eqb_refl. rewrite (proj2 (Z.ltb_lt _ _)) by lia. cbn [andb]. split; [f_equal; lia|lia].
      - exists (m + 1), (j - 1074). split; [f_equal; lia|]. split; [split; [lia|]; rewrite p53_val, p52_val; lia|]. rewrite !units_ulp. split; [lia|]. split.
        + intros Q. rewrite Z.even_add, <- Z.negb_odd. destruct Hup as [|(_ & ->)]; [lia|reflexivity].
        + split; [|lia]. unfold gap_below. rewrite p52_val. destruct (Z.eqb_spec (m + 1) 4503599627370496); cbn [andb]; [|reflexivity]. destruct (Z.ltb_spec (-1074) (j - 1074)); [|reflexivity]. lia. }
    destruct Mc as (m' & k' & Ec & Dd' & Ev & Pe & Eg & Lu). exists m', k'. split.
    + apply nearest_local; auto.
      * split; [|intros Q; exfalso]; rewrite Ev in *; nia.
      * right. rewrite Ev, Eg. split; [nia|]. intros Q. apply Pe. nia.
    + rewrite Ec. cbn [fst snd]. replace (k' + 1074 - 1074) with k' by lia. replace (2045 <? k' + 1074) with (971 <? k') by (destruct (Z.ltb_spec 971 k'); destruct (Z.ltb_spec 2045 (k' + 1074)); lia). reflexivity.
  - assert (Hup : 2 * r <= D' /\ (2 * r = D' -> Z.even m = true)). { unfold up in Up. apply orb_false_elim in Up as (U1 & U2). apply Z.ltb_ge in U1. split; auto. intros Q. rewrite Q, Z.eqb_refl in U2. cbn [andb] in U2. rewrite <- Z.negb_odd, U2. reflexivity. }
    destruct Hup as (H1 & H2). exists m, (j - 1074). split.
    + apply nearest_local; auto.
      * split; [nia|]. intros Q. apply H2. nia.
      * right. pose proof (gap_below_pos m (j - 1074) ltac:(lia)). split; [nia|]. intros Q. exfalso. nia.
    + destruct (Z.eqb_spec m 9007199254740992); [lia|]. cbn [fst snd]. replace (2045 <? j) with (971 <? j - 1074) by (destruct (Z.ltb_spec 971 (j - 1074)); destruct (Z.ltb_spec 2045 j); lia). reflexivity.
Qed.
