(** algorithmR finds the nearest double *)
From Coq Require Import ZArith List Bool Lia.
From Verif Require Import Outcome FloModel FloSpec FloProofs.
Import ListNotations.
Local Open Scope Z_scope.
Ltac Zify.zify_post_hook ::= idtac.

Lemma dec_den_pos e : 0 < dec_den e. Proof. apply pow10_pos. lia. Qed.
Lemma dec_num_pos f e : 0 < f -> 0 < dec_num f e.
Proof. intros. unfold dec_num. pose proof (pow10_pos (Z.max e 0) ltac:(lia)). pose proof (pow2_pos 1074 ltac:(lia)). nia. Qed.
Lemma cmp_scale f e m k : -1074 <= k -> exists c, 0 < c /\ dec_num f e = c * cmp_x f e k /\ units m k * dec_den e = c * cmp_y e m k.
Proof.
  intros Hk. unfold dec_num, dec_den, cmp_x, cmp_y, units. destruct (Z.leb_spec 0 k) as [L|L]; destruct (Z.leb_spec 0 e) as [L2|L2].
  - exists (2 ^ 1074). split; [now apply pow2_pos|]. rewrite Z.max_l, Z.max_r by lia. rewrite Z.pow_0_r. split; [ring|]. rewrite Z.pow_add_r by lia. ring.
  - exists (2 ^ 1074). split; [now apply pow2_pos|]. rewrite Z.max_r, Z.max_l by lia. rewrite Z.pow_0_r. split; [ring|]. rewrite Z.pow_add_r by lia. ring.
  - exists (2 ^ (k + 1074)). split; [apply pow2_pos; lia|]. rewrite Z.max_l, Z.max_r by lia. rewrite Z.pow_0_r. split; [|ring]. replace (2 ^ 1074) with (2 ^ (k + 1074) * 2 ^ (- k)) by (rewrite <- Z.pow_add_r by lia; f_equal; lia). ring.
  - exists (2 ^ (k + 1074)). split; [apply pow2_pos; lia|]. rewrite Z.max_r, Z.max_l by lia. rewrite Z.pow_0_r. split; [|ring]. replace (2 ^ 1074) with (2 ^ (k + 1074) * 2 ^ (- k)) by (rewrite <- Z.pow_add_r by lia; f_equal; lia). ring.
Qed.
Section R.
Context (f e : Z) (Hf : 0 < f).
Notation T := (dec_num f e). Notation D := (dec_den e).
(** not the midpoint below the least normal double, where the algorithm does not stop *)
Context (NT : 2 * T <> (2 ^ 53 - 1) * D).
(** below (above) the midpoint with the predecessor (successor), or on it and odd *)
Definition go_prev m k := T < units m k * D /\ (2 * T < (2 * units m k - gap_below m k) * D \/ 2 * T = (2 * units m k - gap_below m k) * D /\ Z.even m = false).
Definition go_next m k := units m k * D < T /\ ((2 * units m k + ulp k) * D < 2 * T \/ 2 * T = (2 * units m k + ulp k) * D /\ Z.even m = false).
Lemma judge_ok m k : is_double m k ->
  match judge m k (cmp_x f e k) (cmp_y e m k) with
  | Return => m = 0 \/ (upper_ok T D m k /\ lower_ok T D m k)
  | Prev => 0 < m /\ go_prev m k
  | Next => go_next m k
  end.
Proof.
  intros (A1 & A2 & A3). destruct (cmp_scale f e m k A1) as (c & Hc & Ex & Ey). pose proof (dec_den_pos e) as HD. pose proof (dec_num_pos f e Hf) as HT. pose proof (ulp_pos k A1) as Pu.
  assert (NT' : m = 2 ^ 52 -> k = -1074 -> 2 * T <> (2 * units m k - ulp k) * D).
  { intros -> ->. replace (2 * units (2 ^ 52) (-1074) - ulp (-1074)) with (2 ^ 53 - 1) by reflexivity. exact NT. }
  set (x := cmp_x f e k) in *. set (y := cmp_y e m k) in *. unfold judge. rewrite units_ulp in Ey. unfold p52 in *.
  destruct (Z.eq_dec m 0) as [->|N0]. { replace y with 0 by nia. rewrite Z.mul_0_l, Z.mul_0_r. cbn [Z.compare Z.even]. left. reflexivity. }
  assert (C1 : (2 * (m * Z.abs (x - y)) ?= y) = (2 * Z.abs (T - m * ulp k * D) ?= ulp k * D)).
  { rewrite Ex, Ey. replace (c * x - c * y) with (c * (x - y)) by ring. rewrite Z.abs_mul, (Z.abs_eq c) by lia.
    destruct (Z.compare_spec (2 * (m * Z.abs (x - y))) y) as [Q|Q|Q]; symmetry; [apply Z.compare_eq_iff|apply Z.compare_lt_iff|apply Z.compare_gt_iff]; nia. }
  assert (C2 : (y <? 2 * (2 * (m * Z.abs (x - y)))) = (ulp k * D <? 4 * Z.abs (T - m * ulp k * D))).
  { rewrite Ex, Ey. replace (c * x - c * y) with (c * (x - y)) by ring. rewrite Z.abs_mul, (Z.abs_eq c) by lia. destruct (Z.ltb_spec y (2 * (2 * (m * Z.abs (x - y))))) as [Q|Q]; symmetry; [apply Z.ltb_lt|apply Z.ltb_ge]; nia. }
  assert (C3 : (x <? y) = (T <? m * ulp k * D)). { rewrite Ex, Ey. destruct (Z.ltb_spec x y) as [Q|Q]; symmetry; [apply Z.ltb_lt|apply Z.ltb_ge]; nia. }
  rewrite C1, C2, C3. clear C1 C2 C3 Ex Ey x y c Hc.
  unfold go_prev, go_next, upper_ok, lower_ok. rewrite units_ulp in *. set (W := ulp k) in *.
  assert (G : gap_below m k = W /\ (m = 2 ^ 52 -> k = -1074) \/ m = 2 ^ 52 /\ -1074 < k /\ W = 2 * gap_below m k).
  { unfold gap_below. destruct (Z.eqb_spec m (2 ^ 52)) as [Em|Em]; cbn [andb]; [destruct (Z.ltb_spec (-1074) k) as [L|L]|]; [right|left; split; [reflexivity|lia]|left; split; [reflexivity|contradiction]].
    split; auto. split; auto. unfold W. rewrite <- ulp_S by lia. f_equal. lia. }
  set (g := gap_below m k) in *. pose proof (gap_below_pos m k A1) as Pg. fold g in Pg.
  assert (Ev : m = 2 ^ 52 -> Z.even m = true) by (intros ->; reflexivity).
  clearbody g W. set (P := m * W) in *.
  replace ((2 * P - g) * D) with (2 * (P * D) - g * D) by ring. replace ((2 * P + W) * D) with (2 * (P * D) + W * D) by ring. replace ((2 * P - W) * D) with (2 * (P * D) - W * D) in NT' by ring.
  assert (Gd : g * D = W * D /\ (m = 2 ^ 52 -> k = -1074) \/ m = 2 ^ 52 /\ -1074 < k /\ W * D = 2 * (g * D)). { destruct G as [(-> & X)|(X & Y & ->)]; [left; auto|right; split; auto; split; auto; ring]. }
  assert (Hg : 0 < g * D) by nia. assert (Hw : 0 < W * D) by nia. set (gD := g * D) in *. set (WD := W * D) in *. set (PD := P * D) in *. clearbody gD WD PD. clear G g W P Pg Pu.
  destruct (Z.compare_spec (2 * Z.abs (T - PD)) WD) as [Q|Q|Q].
  - destruct (Z.even m) eqn:Em.
    + destruct (Z.eqb_spec m (2 ^ 52)) as [E2|E2]; cbn [andb].
      * destruct (Z.ltb_spec T PD) as [L|L].
        { split; [lia|]. split; [lia|]. left. destruct Gd as [(X & Y)|(X & Y & Zq)]; [|lia]. specialize (NT' E2 (Y E2)). lia. }
        { right. split; [split; [lia|auto]|]. right. split; [lia|]. auto. }
      * destruct Gd as [(X & Y)|(X & Y & Zq)]; [|contradiction]. right. split; [split; [lia|auto]|]. right. split; [lia|auto].
    + destruct Gd as [(X & Y)|(X & Y & Zq)]; [|discriminate (Ev X)]. destruct (Z.ltb_spec T PD) as [L|L].
      * split; [lia|]. split; [lia|]. right. split; [lia|reflexivity].
      * split; [lia|]. right. split; [lia|reflexivity].
  - destruct (Z.eqb_spec m (2 ^ 52)) as [E2|E2]; cbn [andb].
    + destruct (Z.ltb_spec T PD) as [L|L]; cbn [andb].
      * destruct (Z.ltb_spec (-1074) k) as [L2|L2]; cbn [andb].
        { destruct Gd as [(X & Y)|(X & Y & Zq)]; [specialize (Y E2); lia|]. destruct (Z.ltb_spec WD (4 * Z.abs (T - PD))) as [L3|L3].
          - split; [lia|]. split; [lia|]. left. lia.
          - right. split; [split; [lia|auto]|]. right. split; [lia|auto]. }
        { destruct Gd as [(X & Y)|(X & Y & Zq)]; [|lia]. right. split; [split; [lia|auto]|]. right. split; [lia|auto]. }
      * right. split; [split; [lia|auto]|]. right. split; [lia|]. intros. exfalso. lia.
    + destruct Gd as [(X & Y)|(X & Y & Zq)]; [|contradiction]. right. split; [split; [lia|intros; exfalso; lia]|]. right. split; [lia|intros; exfalso; lia].
  - destruct (Z.ltb_spec T PD) as [L|L].
    + split; [lia|]. split; [lia|]. left. destruct Gd as [(X & Y)|(X & Y & Zq)]; lia.
    + split; [lia|]. left. lia.
Qed.
Definition skip_ok m k := m = 2 ^ 53 - 2 /\ 2 * T < (2 * units m k + 3 * ulp k) * D.
Lemma prev_ok m k : is_double m k -> 0 < m -> go_prev m k ->
  exists m' k', prev_float m k = (m', k') /\ is_double m' k' /\ k' <= k /\ units m' k' < units m k /\ (upper_ok T D m' k' \/ skip_ok m' k').
Proof.
  intros (A1 & A2 & A3) Hm (_ & G). unfold prev_float, p52. pose proof (ulp_pos k A1) as Pu. rewrite p53_val, p52_val in *. destruct (Z.ltb_spec (-1074) k) as [L|L]; cbn [andb]; [destruct (Z.ltb_spec (m - 1) 4503599627370496) as [L2|L2]|].
  - destruct A3; [lia|]. assert (m = 4503599627370496) by lia. exists ((m - 1) * 2), (k - 1). split; [reflexivity|]. split; [split; [lia|]; rewrite p53_val, p52_val; lia|]. split; [lia|].
    pose proof (ulp_S (k - 1) ltac:(lia)) as U. replace (k - 1 + 1) with k in U by lia. pose proof (ulp_pos (k - 1) ltac:(lia)). rewrite !units_ulp. split; [nia|]. right. split; [rewrite p53_val; lia|].
    unfold gap_below in G. rewrite p52_val in G. rewrite (proj2 (Z.eqb_eq m _)), (proj2 (Z.ltb_lt (-1074) k)) in G by auto. cbn [andb] in G. destruct G as [G|(_ & G)]; [|subst m; discriminate]. rewrite units_ulp in *. subst m. rewrite U in *. lia.
  - exists (m - 1), k. split; [reflexivity|]. split; [split; [lia|]; rewrite p53_val, p52_val; lia|]. split; [lia|]. rewrite !units_ulp. split; [nia|]. left. unfold gap_below in G. rewrite p52_val in G. rewrite (proj2 (Z.eqb_neq m _)) in G by lia. cbn [andb] in G. unfold upper_ok. rewrite units_ulp in *.
    replace (2 * ((m - 1) * ulp k) + ulp k) with (2 * (m * ulp k) - ulp k) by ring. split; [lia|]. intros Q. destruct G as [G|(_ & G)]; [lia|]. rewrite Z.even_sub, G. reflexivity.
  - exists (m - 1), k. split; [reflexivity|]. split; [split; [lia|]; rewrite p53_val, p52_val; lia|]. split; [lia|]. rewrite !units_ulp. split; [nia|]. left. unfold gap_below in G. rewrite (proj2 (Z.ltb_ge (-1074) k)) in G by lia. rewrite andb_false_r in G. unfold upper_ok. rewrite units_ulp in *.
    replace (2 * ((m - 1) * ulp k) + ulp k) with (2 * (m * ulp k) - ulp k) by ring. split; [lia|]. intros Q. destruct G as [G|(_ & G)]; [lia|]. rewrite Z.even_sub, G. reflexivity.
Qed.
Lemma next_ok m k : is_double m k -> go_next m k ->
  exists m' k', next_float m k = (m', k') /\ is_double m' k' /\ k <= k' /\ units m' k' = units m k + ulp k /\ lower_ok T D m' k' /\ (m < 2 ^ 53 - 1 -> m' = m + 1 /\ k' = k).
Proof.
  intros (A1 & A2 & A3) (_ & G). unfold next_float, p53. pose proof (ulp_pos k A1) as Pu. unfold lower_ok, gap_below. rewrite p53_val, p52_val in *. destruct (Z.leb_spec 9007199254740992 (m + 1)) as [L|L].
  - assert (m = 9007199254740991) by lia. exists 4503599627370496, (k + 1). split; [subst m; reflexivity|]. split; [split; [lia|]; rewrite p53_val, p52_val; lia|]. split; [lia|]. rewrite !units_ulp, ulp_S in * by lia. split; [lia|]. split; [|lia]. right. rewrite Z.eqb_refl, (proj2 (Z.ltb_lt (-1074) (k + 1))) by lia. cbn [andb]. replace (k + 1 - 1) with k by lia.
    replace (2 * (4503599627370496 * (2 * ulp k)) - ulp k) with (2 * (m * ulp k) + ulp k) by (subst m; ring). split; [lia|]. intros. reflexivity.
  - exists (m + 1), k. split; [reflexivity|]. split; [split; [lia|]; rewrite p53_val, p52_val; lia|]. split; [lia|]. rewrite !units_ulp in *. split; [lia|]. split; [|lia]. right.
    assert (Q : (if (m + 1 =? 4503599627370496) && (-1074 <? k) then ulp (k - 1) else ulp k) = ulp k). { destruct (Z.eqb_spec (m + 1) 4503599627370496); cbn [andb]; [|reflexivity]. destruct (Z.ltb_spec (-1074) k); [|reflexivity]. lia. }
    rewrite Q. replace (2 * ((m + 1) * ulp k) - ulp k) with (2 * (m * ulp k) + ulp k) by ring. split; [lia|]. intros Q2. destruct G as [G|(_ & G)]; [lia|]. rewrite Z.even_add, G. reflexivity.
Qed.
Lemma upper_not_next m k : upper_ok T D m k -> go_next m k -> False.
Proof. intros (U1 & U2) (_ & [G|(G1 & G2)]); [lia|]. rewrite U2 in G2 by auto. discriminate. Qed.
Lemma lower_not_prev m k : lower_ok T D m k -> 0 < m -> go_prev m k -> False.
Proof. intros [->|(U1 & U2)] Hm (_ & [G|(G1 & G2)]); [lia|lia|lia|]. rewrite U2 in G2 by auto. discriminate. Qed.

(** ** The loop *)
Notation cx k := (cmp_x f e k). Notation cy m k := (cmp_y e m k).
Definition advance (fuel : nat) (m' k' kprev x : Z) : res flo :=
  if 0 <=? kprev then
    if 0 <=? k' then algR_loop fuel f e m' k' kprev x (cy m' k')
    else algR_loop fuel f e m' k' k' (cx k') (cy m' k')
  else
    if k' <? 0 then algR_loop fuel f e m' k' kprev (if k' =? kprev then x else cx k') (cy m' k')
    else algR_loop fuel f e m' k' k' (cx k') (cy m' k').
Lemma algR_loop_S fuel m k kprev x y : algR_loop (S fuel) f e m k kprev x y =
  match judge m k x y with
  | Return => Ok (ldexp_exact m k)
  | Prev => advance fuel (fst (prev_float m k)) (snd (prev_float m k)) kprev x
  | Next => advance fuel (fst (next_float m k)) (snd (next_float m k)) kprev x
  end.
Proof. reflexivity. Qed.
Definition same_sign a b := (0 <= a <-> 0 <= b).
Lemma cx_nonneg k k' : 0 <= k -> 0 <= k' -> cx k = cx k'. Proof. intros. unfold cmp_x. rewrite (proj2 (Z.leb_le 0 k)), (proj2 (Z.leb_le 0 k')) by auto. reflexivity. Qed.
Lemma advance_ok m' k' k kprev : same_sign kprev k -> (k' = kprev -> k = k') ->
  exists kp, (kp = kprev \/ kp = k') /\ same_sign kp k' /\ forall fuel, advance fuel m' k' kprev (cx k) = algR_loop fuel f e m' k' kp (cx k') (cy m' k').
Proof.
  unfold same_sign, advance. intros Sg K. destruct (Z.leb_spec 0 kprev) as [L|L].
  - destruct (Z.leb_spec 0 k') as [L2|L2].
    + exists kprev. split; auto. split; [lia|]. now rewrite (cx_nonneg k k') by lia.
    + exists k'. split; auto. split; [lia|reflexivity].
  - destruct (Z.ltb_spec k' 0) as [L2|L2].
    + exists kprev. split; auto. split; [lia|]. destruct (Z.eqb_spec k' kprev) as [E|E]; [rewrite (K E)|]; reflexivity.
    + exists k'. split; auto. split; [lia|reflexivity].
Qed.
Definition good (r : nat -> res flo) := exists m k n, nearest T D m k /\ forall fuel, (n <= fuel)%nat -> r fuel = Ok (ldexp_exact m k).
Lemma good_return m k kp : is_double m k -> upper_ok T D m k -> lower_ok T D m k -> judge m k (cx k) (cy m k) = Return -> good (fun fuel => algR_loop fuel f e m k kp (cx k) (cy m k)).
Proof.
  intros Hd U L J. exists m, k, 1%nat. split; [apply nearest_local; auto; [apply dec_den_pos|pose proof (dec_num_pos f e Hf); lia]|]. intros fuel H. destruct fuel as [|fuel]; [lia|]. now rewrite algR_loop_S, J.
Qed.
Lemma good_step (r r' : nat -> res flo) : good r -> (forall fuel, r' (S fuel) = r fuel) -> good r'.
Proof. intros (m & k & n & H & H2) E. exists m, k, (S n). split; auto. intros fuel L. destruct fuel as [|fuel]; [lia|]. rewrite E. apply H2. lia. Qed.
Lemma good_ext (r r' : nat -> res flo) : good r -> (forall fuel, r' fuel = r fuel) -> good r'.
Proof. intros (m & k & n & H & H2) E. exists m, k, n. split; auto. intros fuel L. rewrite E. auto. Qed.
Notation run m k kp := (fun fuel => algR_loop fuel f e m k kp (cx k) (cy m k)).
Lemma good_done m k kp : is_double m k -> upper_ok T D m k -> lower_ok T D m k -> good (run m k kp).
Proof.
  intros Hd U L. apply good_return; auto. pose proof (judge_ok m k Hd) as J. destruct (judge m k (cx k) (cy m k)); auto.
  - destruct J as (J1 & J2). exfalso. eapply lower_not_prev; eauto.
  - exfalso. eapply upper_not_next; eauto.
Qed.
Lemma upper_zero m k : m = 0 -> lower_ok T D m k. Proof. now left. Qed.
Lemma good_down : forall n m k kp, is_double m k -> units m k <= Z.of_nat n -> same_sign kp k -> k <= kp -> upper_ok T D m k \/ skip_ok m k -> good (run m k kp).
Proof.
  induction n as [n IH] using (well_founded_induction lt_wf). intros m k kp Hd Hn Sg K I. pose proof Hd as (A1 & A2 & A3). pose proof (judge_ok m k Hd) as J. destruct (judge m k (cx k) (cy m k)) eqn:Ej.
  - destruct J as [E0|(U & L)]; [|now apply good_return]. destruct I as [I|(I & _)]; [|exfalso; rewrite p53_val in I; lia]. apply good_return; auto. now apply upper_zero.
  - destruct J as (Hm & J). destruct (prev_ok m k Hd Hm J) as (m' & k' & E & Hd' & K' & U' & I'). destruct (advance_ok m' k' k kp Sg ltac:(lia)) as (kp' & Hkp & S' & Ea).
    eapply good_step with (r := run m' k' kp').
    + pose proof Hd' as (B1 & B2 & _). assert (0 <= units m' k') by (rewrite units_ulp; pose proof (ulp_pos k' B1); nia). apply (IH (Z.to_nat (units m' k'))); auto; [lia|lia|]. destruct Hkp; lia.
    + intros fuel. rewrite algR_loop_S, Ej, E. cbn [fst snd]. apply Ea.
  - destruct I as [I|(Em & I)]; [exfalso; eapply upper_not_next; eauto|]. destruct (next_ok m k Hd J) as (m' & k' & E & Hd' & K' & U' & L' & Eq). destruct (Eq ltac:(rewrite p53_val in *; lia)) as (-> & ->).
    eapply good_step with (r := run (m + 1) k kp).
    + apply good_done; auto. split; [|intros Q; exfalso]; rewrite !units_ulp in *; nia.
    + intros fuel. rewrite algR_loop_S, Ej, E. cbn [fst snd]. unfold same_sign in *. unfold advance. destruct (Z.leb_spec 0 kp); [rewrite (proj2 (Z.leb_le 0 k)) by lia|rewrite (proj2 (Z.ltb_lt k 0)) by lia; destruct (k =? kp)]; reflexivity.
Qed.
Lemma good_up : forall n m k kp, is_double m k -> T - units m k * D <= Z.of_nat n -> same_sign kp k -> kp <= k -> 0 < m -> lower_ok T D m k -> good (run m k kp).
Proof.
  induction n as [n IH] using (well_founded_induction lt_wf). intros m k kp Hd Hn Sg K Hm I. pose proof Hd as (A1 & A2 & A3). pose proof (judge_ok m k Hd) as J. destruct (judge m k (cx k) (cy m k)) eqn:Ej.
  - destruct J as [E0|(U & L)]; [lia|now apply good_return].
  - destruct J as (_ & J). exfalso. eapply lower_not_prev; eauto.
  - destruct (next_ok m k Hd J) as (m' & k' & E & Hd' & K' & U' & L' & _). destruct (advance_ok m' k' k kp Sg ltac:(lia)) as (kp' & Hkp & S' & Ea).
    pose proof (ulp_pos k A1) as Pu. pose proof (dec_den_pos e) as PD. destruct J as (J & _).
    eapply good_step with (r := run m' k' kp').
    + pose proof Hd' as (B1 & B2 & _). apply (IH (Z.to_nat (T - units m' k' * D))); auto; [rewrite U' in *; nia|lia|destruct Hkp; lia|].
      assert (0 < units m' k') by (rewrite U', units_ulp; nia). rewrite units_ulp in H. pose proof (ulp_pos k' B1). nia.
    + intros fuel. rewrite algR_loop_S, Ej, E. cbn [fst snd]. apply Ea.
Qed.
Lemma algorithmR_ok m k : is_double m k -> 0 < m -> good (fun fuel => algorithmR fuel f e m k).
Proof.
  intros Hd Hm. unfold algorithmR. pose proof Hd as (A1 & A2 & A3). pose proof (judge_ok m k Hd) as J. destruct (judge m k (cx k) (cy m k)) eqn:Ej.
  - destruct J as [E0|(U & L)]; [lia|now apply good_return].
  - destruct J as (_ & J). destruct (prev_ok m k Hd Hm J) as (m' & k' & E & Hd' & K' & U' & I'). destruct (advance_ok m' k' k k ltac:(unfold same_sign; lia) ltac:(lia)) as (kp' & Hkp & S' & Ea).
    eapply good_step with (r := run m' k' kp').
    + pose proof Hd' as (B1 & B2 & _). apply (good_down (Z.to_nat (units m' k'))); auto; [lia|]. destruct Hkp; lia.
    + intros fuel. rewrite algR_loop_S, Ej, E. cbn [fst snd]. apply Ea.
  - destruct (next_ok m k Hd J) as (m' & k' & E & Hd' & K' & U' & L' & _). destruct (advance_ok m' k' k k ltac:(unfold same_sign; lia) ltac:(lia)) as (kp' & Hkp & S' & Ea).
    pose proof (ulp_pos k A1) as Pu.
    eapply good_step with (r := run m' k' kp').
    + pose proof Hd' as (B1 & B2 & _). apply (good_up (Z.to_nat (T - units m' k' * D))); auto; [lia|destruct Hkp; lia|].
      assert (0 < units m' k') by (rewrite U', units_ulp; nia). rewrite units_ulp in H. pose proof (ulp_pos k' B1). nia.
    + intros fuel. rewrite algR_loop_S, Ej, E. cbn [fst snd]. apply Ea.
Qed.
End R.
