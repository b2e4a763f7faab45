(** Scaling, and the whole of print_double's digit generation *)
From Coq Require Import ZArith List Bool Lia.
From Verif Require Import Outcome FloModel FloSpec FloProofs FloProofs2 FloProofs3 FloProofs4 FloProofs5.
Import ListNotations.
Local Open Scope Z_scope.
Ltac Zify.zify_post_hook ::= idtac.

(** the two doubles where the code's test (exp == -1023) is not what it should be: 2^-1022 and 2^-971 *)
Definition odd_pair (m k : Z) : Prop := m = 2 ^ 52 /\ (k = -1023 \/ k = -1074).
Lemma ulp_le_units m k : is_double m k -> 0 < m -> ulp k <= units m k.
Proof. intros (A & _) H. rewrite units_ulp. pose proof (ulp_pos k A). nia. Qed.
Lemma print_init_ok m k : is_double m k -> 0 < m -> ~ odd_pair m k ->
  exists r s mm mp2, print_init m k = (r, s, mm, mp2) /\ 0 < r /\ 0 < s /\ 0 < mm /\ r * 2 ^ 1074 = units m k * s /\ 2 * mplus mm mp2 * 2 ^ 1074 = ulp k * s /\ 2 * mm * 2 ^ 1074 = gap_below m k * s.
Proof.
  intros (A1 & A2 & A3) Hm Ho. unfold print_init, units, ulp, gap_below, p52, mplus. unfold odd_pair in Ho. destruct (Z.leb_spec 0 k) as [L|L].
  - pose proof (pow2_pos k L) as Pk. rewrite (Z.pow_add_r 2 k 1074) by lia. set (c := 2 ^ 1074). assert (Pc : 0 < c) by (apply pow2_pos; lia). destruct (Z.eqb_spec m (2 ^ 52)) as [E|E]; cbn [negb andb].
    + rewrite (proj2 (Z.ltb_lt (-1074) k)) by lia. do 4 eexists. split; [reflexivity|]. cbv iota. unfold ulp.
      replace (k - 1 + 1074) with (k + 1073) by ring. rewrite !Z.pow_add_r by lia. replace c with (2 * 2 ^ 1073) by reflexivity. set (d := 2 ^ 1073). change (2 ^ 2) with 4. repeat split; try nia; ring.
    + do 4 eexists. split; [reflexivity|]. cbv iota. unfold ulp. rewrite !Z.pow_add_r by lia. fold c. change (2 ^ 1) with 2. repeat split; try nia; ring.
  - assert (E1 : 2 ^ (k + 1074) * 2 ^ (- k) = 2 ^ 1074) by (rewrite <- Z.pow_add_r by lia; f_equal; lia). pose proof (pow2_pos (- k) ltac:(lia)) as Pk.
    destruct (Z.eqb_spec m (2 ^ 52)) as [E|E]; cbn [negb andb].
    + destruct (Z.eqb_spec k (-1023)) as [E2|E2]; [exfalso; auto|]. cbn [orb]. rewrite (proj2 (Z.ltb_lt (-1074) k)) by lia. do 4 eexists. split; [reflexivity|]. cbv iota. unfold ulp. rewrite (Z.pow_add_r 2 (- k) 2) by lia. change (2 ^ 2) with 4.
      assert (E3 : 2 * 2 ^ (k - 1 + 1074) = 2 ^ (k + 1074)) by (rewrite <- Z.pow_succ_r by lia; f_equal; lia). rewrite <- E3 in E1 |- *. rewrite <- E1. set (a := 2 ^ (k - 1 + 1074)). set (b := 2 ^ (- k)) in *. clearbody a b. repeat split; try nia; ring.
    + rewrite orb_true_r. do 4 eexists. split; [reflexivity|]. cbv iota. unfold ulp. rewrite (Z.pow_add_r 2 (- k) 1) by lia. change (2 ^ 1) with 2. rewrite <- E1. set (a := 2 ^ (k + 1074)). set (b := 2 ^ (- k)) in *. clearbody a b. repeat split; try nia; ring.
Qed.
(** print_scale without the tests *)
Definition scaled (m k K r s mm mp : Z) : Prop :=
  0 < r /\ 0 < s /\ 0 < mm /\ r * dn K = units m k * dd K * s /\ 2 * mp * dn K = ulp k * dd K * s /\ 2 * mm * dn K = gap_below m k * dd K * s.
Lemma scaled_S m k K r s mm mp : scaled m k K r s mm mp -> scaled m k (K + 1) r (s * 10) mm mp.
Proof.
  intros (A & B & C & D & E & F). pose proof (dec_S K) as S1. pose proof (dd_pos K) as P1. unfold scaled. repeat split; auto; try lia.
  - apply (Z.mul_cancel_r _ _ (dd K)); [lia|]. rewrite <- Z.mul_assoc, S1. replace (r * (10 * dn K * dd (K + 1))) with (r * dn K * (10 * dd (K + 1))) by ring. rewrite D. ring.
  - apply (Z.mul_cancel_r _ _ (dd K)); [lia|]. rewrite <- Z.mul_assoc, S1. replace (2 * mp * (10 * dn K * dd (K + 1))) with (2 * mp * dn K * (10 * dd (K + 1))) by ring. rewrite E. ring.
  - apply (Z.mul_cancel_r _ _ (dd K)); [lia|]. rewrite <- Z.mul_assoc, S1. replace (2 * mm * (10 * dn K * dd (K + 1))) with (2 * mm * dn K * (10 * dd (K + 1))) by ring. rewrite F. ring.
Qed.
Lemma print_scale_ok m k est : is_double m k -> 0 < m -> ~ odd_pair m k -> estimate_ok m k est ->
  exists r s mm mp2 K, print_scale m k est = (r, s, mm, mp2, K) /\ est <= K <= est + 1 /\ scaled m k K r s mm (mplus mm mp2) /\
    outside (Z.even m) r s mm (mplus mm mp2) /\ le_if (Z.even m) s ((r + mplus mm mp2) * 10).
Proof.
  intros Hd Hm Ho (He1 & He2). destruct (print_init_ok m k Hd Hm Ho) as (r0 & s0 & mm0 & mp2 & E0 & Pr & Ps & Pm & EA & EB & EC). unfold print_scale. rewrite E0.
  set (s1 := if 0 <=? est then s0 * 10 ^ est else s0). set (r1 := if 0 <=? est then r0 else r0 * 10 ^ (- est)). set (mm1 := if 0 <=? est then mm0 else mm0 * 10 ^ (- est)).
  assert (Sc : scaled m k est r1 s1 mm1 (mplus mm1 mp2)).
  { assert (Em : mplus mm1 mp2 = if 0 <=? est then mplus mm0 mp2 else mplus mm0 mp2 * 10 ^ (- est)) by (unfold mm1; destruct (0 <=? est), mp2; cbn [mplus]; ring). rewrite Em. unfold scaled, dec_num, dec_den, r1, s1, mm1. destruct (Z.leb_spec 0 est) as [L|L].
    - rewrite Z.max_l, Z.max_r, Z.pow_0_r by lia. pose proof (pow10_pos est L). set (t := 10 ^ est) in *. set (c := 2 ^ 1074) in *. repeat split; auto; try nia; rewrite ?Z.mul_1_l, ?Z.mul_1_r.
    - rewrite Z.max_r, Z.max_l, Z.pow_0_r by lia. pose proof (pow10_pos (- est) ltac:(lia)). set (t := 10 ^ (- est)) in *. set (c := 2 ^ 1074) in *. repeat split; auto; try nia; rewrite ?Z.mul_1_l, ?Z.mul_1_r. }
  clearbody s1 r1 mm1. clear E0 EA EB EC Pr Ps Pm s0 r0 mm0. pose proof Sc as (Pr & Ps & Pm & EA & EB & EC). set (mp := mplus mm1 mp2) in *. pose proof (dn_pos est) as P1. pose proof (dd_pos est) as P2. pose proof (ulp_le_units m k Hd Hm) as Hu. pose proof (gap_le m k ltac:(apply Hd)) as Hg. pose proof (mplus_pos mm1 mp2 Pm) as Hmp. fold mp in Hmp.
  assert (M1 : 2 * mm1 <= r1). { apply (Z.mul_le_mono_pos_r _ _ (dn est)); auto. rewrite EC, EA. assert (0 < dd est * s1) by nia. nia. }
  assert (M2 : 2 * mp <= r1). { apply (Z.mul_le_mono_pos_r _ _ (dn est)); auto. rewrite EB, EA. assert (0 < dd est * s1) by nia. nia. }
  assert (R2 : r1 < 2 * s1). { apply (Z.mul_lt_mono_pos_r (dn est)); auto. rewrite EA. rewrite dn_lin in He2. nia. }
  assert (R1 : s1 <= 10 * r1). { pose proof (dec_S (est - 1)) as S1. replace (est - 1 + 1) with est in S1 by ring. pose proof (dd_pos (est - 1)) as P3. apply (Z.mul_le_mono_pos_r _ _ (dn est * dd (est - 1))); [nia|]. replace (10 * r1 * (dn est * dd (est - 1))) with (10 * (r1 * dn est) * dd (est - 1)) by ring. rewrite EA, S1.
    replace (s1 * (10 * dn (est - 1) * dd est)) with (dn (est - 1) * (10 * s1 * dd est)) by ring. replace (10 * (units m k * dd est * s1) * dd (est - 1)) with (units m k * dd (est - 1) * (10 * s1 * dd est)) by ring. assert (0 < 10 * s1 * dd est) by nia. nia. }
  destruct ((s1 <=? r1) || (if Z.even m then s1 <=? r1 + mp else s1 <? r1 + mp)) eqn:Fx.
  - exists r1, (s1 * 10), mm1, mp2, (est + 1). split; [reflexivity|]. split; [lia|]. split; [apply scaled_S; auto|]. split; [split; unfold le_if; destruct (negb (Z.even m)); lia|].
    unfold le_if. apply orb_prop in Fx as [Fx|Fx]; [apply Z.leb_le in Fx; destruct (Z.even m); lia|]. destruct (Z.even m); [apply Z.leb_le in Fx|apply Z.ltb_lt in Fx]; lia.
  - apply orb_false_elim in Fx as (F1 & F2). exists r1, s1, mm1, mp2, est. split; [reflexivity|]. split; [lia|]. split; [auto|]. split; [split|].
    + unfold le_if. destruct (negb (Z.even m)); lia.
    + unfold le_if. fold mp. destruct (Z.even m); cbn [negb]; [apply Z.leb_gt in F2|apply Z.ltb_ge in F2]; lia.
    + unfold le_if. fold mp. destruct (Z.even m); lia.
Qed.
Lemma fuel_ok s mm : 0 < s -> 0 < mm -> s < mm * 2 ^ Z.of_nat (S (Z.to_nat (Z.log2 s))).
Proof.
  intros Hs Hm. rewrite Nat2Z.inj_succ, Z2Nat.id by apply Z.log2_nonneg. pose proof (Z.log2_spec s Hs) as (_ & H). pose proof (pow2_pos (Z.succ (Z.log2 s)) ltac:(pose proof (Z.log2_nonneg s); lia)). nia.
Qed.
(** ** The two special doubles, computed *)
Definition reads_b (P e m k : Z) : bool :=
  let N := dec_num P e in let D := dec_den e in
  ((2 * N <? (2 * units m k + ulp k) * D) || (2 * N =? (2 * units m k + ulp k) * D) && Z.even m) &&
  (((2 * units m k - gap_below m k) * D <? 2 * N) || ((2 * units m k - gap_below m k) * D =? 2 * N) && Z.even m).
Lemma reads_b_iff P e m k : 0 <= P -> is_double m k -> 0 < m -> reads_b P e m k = true <-> reads_as P e m k.
Proof.
  intros HP Hd Hm. pose proof (dd_pos e) as PD. unfold reads_b, reads_as. set (N := dec_num P e). set (D := dd e) in *.
  assert (HN : 0 <= N) by (unfold N; rewrite dn_lin; pose proof (dn_pos e); nia). rewrite andb_true_iff, !orb_true_iff, !andb_true_iff, !Z.ltb_lt, !Z.eqb_eq. split.
  - intros (A & B). apply nearest_local; auto; [split; [|intros Q]; destruct A as [A|(A & A')]; auto; lia|right; split; [|intros Q]; destruct B as [B|(B & B')]; auto; lia].
  - intros H. destruct (nearest_upper _ _ _ _ PD H) as (U1 & U2). destruct (nearest_lower _ _ _ _ PD H) as [->|(L1 & L2)]; [lia|]. split.
    + destruct (Z.eq_dec (2 * N) ((2 * units m k + ulp k) * D)) as [Q|Q]; [right; auto|left; lia].
    + destruct (Z.eq_dec ((2 * units m k - gap_below m k) * D) (2 * N)) as [Q|Q]; [right; auto|left; lia].
Qed.
Lemma dots0 : forall ds digs, 1 <= digs -> dots 0 digs ds = map digit_char ds.
Proof.
  induction ds as [|d ds IH]; intros digs H; [reflexivity|]. destruct ds as [|d2 ds]; [reflexivity|]. cbn [dots map]. rewrite (proj2 (Z.eqb_neq digs 0)) by lia. cbn [app]. f_equal. apply IH. lia.
Qed.
Lemma map_digit_inj : forall a b, map digit_char a = map digit_char b -> a = b.
Proof. induction a as [|x a IH]; destruct b as [|y b]; intros H; try discriminate; auto. cbn [map] in H. injection H as H1 H2. f_equal; [unfold digit_char in H1; lia|auto]. Qed.
Lemma dec_mono a b : a <= b -> dn a * dd b <= dn b * dd a.
Proof. intros H. pose proof (dec_shift 1 b (b - a) ltac:(lia)) as S1. replace (b - (b - a)) with a in S1 by ring. pose proof (pow10_pos (b - a) ltac:(lia)). pose proof (dn_pos a). pose proof (dd_pos b). assert (0 < dn a * dd b) by nia. nia. Qed.
Lemma est_le m k est c : estimate_ok m k est -> units m k * dd c < dn c -> est <= c.
Proof.
  intros (H & _) Hc. apply Z.le_ngt. intros L. pose proof (dec_mono c (est - 1) ltac:(lia)) as M. pose proof (dd_pos c) as P1. pose proof (dd_pos (est - 1)) as P2.
  assert (units m k * dd c * dd (est - 1) < dn c * dd (est - 1)) by nia. assert (dn (est - 1) * dd c <= units m k * dd (est - 1) * dd c) by nia. lia.
Qed.
Lemma est_ge m k est c : estimate_ok m k est -> 2 * dn c <= units m k * dd c -> c + 1 <= est.
Proof.
  intros (_ & H) Hc. rewrite dn_lin in H. apply Z.le_ngt. intros L. pose proof (dec_mono est c ltac:(lia)) as M. pose proof (dd_pos c) as P1. pose proof (dd_pos est) as P2.
  assert (units m k * dd est * dd c < 2 * dn est * dd c) by nia. assert (2 * dn c * dd est <= units m k * dd c * dd est) by nia. lia.
Qed.
Definition print_ok (m k est : Z) (ds : list Z) (K : Z) : Prop :=
  exists r s mm mp2, print_scale m k est = (r, s, mm, mp2, K) /\
  (forall point digs, print_digits (S (Z.to_nat (Z.log2 s))) (Z.even m) r s mm mp2 point digs = Ok (dots point digs ds, digs + len ds - 1)) /\
  ds <> [] /\ Forall digit ds /\ best m k K (dval ds 0) (len ds).
Lemma print_ok_generic m k est : is_double m k -> 0 < m -> ~ odd_pair m k -> estimate_ok m k est -> exists ds K, est <= K <= est + 1 /\ print_ok m k est ds K.
Proof.
  intros Hd Hm Ho He. destruct (print_scale_ok m k est Hd Hm Ho He) as (r & s & mm & mp2 & K & E & HK & Sc & Out & Fi). pose proof Sc as (Pr & Ps & Pm & EA & EB & EC).
  destruct (run_ok_main (Z.even m) s mp2 Ps (S (Z.to_nat (Z.log2 s))) r mm Pr Pm Out (fuel_ok s mm Ps Pm)) as (ds & Ed & R). exists ds, K. split; auto. exists r, s, mm, mp2. split; auto. split; auto.
  pose proof R as (R1 & R2 & R'). split; auto. split; auto. apply (run_best m k K r s mm (mplus mm mp2)); auto. now apply ulp_le_units.
Qed.
(** digits computed with the right interval, in a case where the code uses another one *)
Lemma print_ok_special m k est K r s mm mp2 rc sc mmc mp2c cs :
  is_double m k -> 0 < m -> print_scale m k est = (r, s, mm, mp2, K) ->
  0 < r -> 0 < s -> 0 < mm -> outside (Z.even m) r s mm (mplus mm mp2) ->
  scaled m k K rc sc mmc (mplus mmc mp2c) -> outside (Z.even m) rc sc mmc (mplus mmc mp2c) -> le_if (Z.even m) sc ((rc + mplus mmc mp2c) * 10) ->
  print_digits (S (Z.to_nat (Z.log2 s))) (Z.even m) r s mm mp2 0 1 = Ok (map digit_char cs, len cs) ->
  print_digits (S (Z.to_nat (Z.log2 sc))) (Z.even m) rc sc mmc mp2c 0 1 = Ok (map digit_char cs, len cs) -> print_ok m k est cs K.
Proof.
  intros Hd Hm E Pr Ps Pm Out Sc Outc Fi C1 C2. pose proof Sc as (Prc & Psc & Pmc & EA & EB & EC).
  destruct (run_ok_main (Z.even m) s mp2 Ps _ r mm Pr Pm Out (fuel_ok s mm Ps Pm)) as (ds & Ed & R).
  destruct (run_ok_main (Z.even m) sc mp2c Psc _ rc mmc Prc Pmc Outc (fuel_ok sc mmc Psc Pmc)) as (dc & Edc & Rc).
  assert (ds = cs). { specialize (Ed 0 1). rewrite C1, dots0 in Ed by lia. injection Ed as Ed _. symmetry. now apply map_digit_inj. }
  assert (dc = cs). { specialize (Edc 0 1). rewrite C2, dots0 in Edc by lia. injection Edc as Edc _. symmetry. now apply map_digit_inj. }
  subst ds dc. exists r, s, mm, mp2. split; auto. split; auto. pose proof Rc as (R1 & R2 & _). split; auto. split; auto. apply (run_best m k K rc sc mmc (mplus mmc mp2c)); auto. now apply ulp_le_units.
Qed.
Definition ds_971 : list Z := [5;0;1;0;4;2;0;9;0;0;0;2;2;4;3;2].
Definition ds_1022 : list Z := [2;2;2;5;0;7;3;8;5;8;5;0;7;2;0;1;4].
Ltac lt_cmp := first [apply Z.ltb_lt|apply Z.leb_le|apply Z.eqb_eq]; vm_compute; reflexivity.
Lemma print_ok_971 : print_ok (2 ^ 52) (-1023) (-292) ds_971 (-292).
Proof.
  eapply (print_ok_special _ _ _ _ _ _ _ _ (2 ^ 52 * 4 * 10 ^ 292) (2 ^ 1025) (10 ^ 292) true).
  - unfold is_double. rewrite p53_val, p52_val. lia.
  - reflexivity.
  - vm_compute. reflexivity.
  - reflexivity.
  - reflexivity.
  - reflexivity.
  - split; vm_compute; reflexivity.
  - unfold scaled. repeat split; lt_cmp.
  - split; vm_compute; reflexivity.
  - vm_compute. discriminate.
  - vm_compute. reflexivity.
  - vm_compute. reflexivity.
Qed.
Lemma print_ok_1022 : print_ok (2 ^ 52) (-1074) (-307) ds_1022 (-307).
Proof.
  eapply (print_ok_special _ _ _ _ _ _ _ _ (2 ^ 52 * 2 * 10 ^ 307) (2 ^ 1075) (10 ^ 307) false).
  - unfold is_double. rewrite p53_val, p52_val. lia.
  - reflexivity.
  - vm_compute. reflexivity.
  - reflexivity.
  - reflexivity.
  - reflexivity.
  - split; vm_compute; reflexivity.
  - unfold scaled. repeat split; lt_cmp.
  - split; vm_compute; reflexivity.
  - vm_compute. discriminate.
  - vm_compute. reflexivity.
  - vm_compute. reflexivity.
Qed.
Lemma print_ok_all m k est : is_double m k -> 0 < m -> estimate_ok m k est -> exists ds K, est <= K <= est + 1 /\ print_ok m k est ds K.
Proof.
  intros Hd Hm He. destruct (Z.eq_dec m (2 ^ 52)) as [Em|Em]; [|apply print_ok_generic; auto; intros (X & _); auto].
  destruct (Z.eq_dec k (-1023)) as [Ek|Ek]; [|destruct (Z.eq_dec k (-1074)) as [Ek2|Ek2]; [|apply print_ok_generic; auto; intros (_ & X); lia]]; subst m k.
  - assert (est = -292) as ->. { pose proof (est_le _ _ _ (-292) He ltac:(lt_cmp)). pose proof (est_ge _ _ _ (-293) He ltac:(lt_cmp)). lia. } exists ds_971, (-292). split; [lia|apply print_ok_971].
  - assert (est = -307) as ->. { pose proof (est_le _ _ _ (-307) He ltac:(lt_cmp)). pose proof (est_ge _ _ _ (-308) He ltac:(lt_cmp)). lia. } exists ds_1022, (-307). split; [lia|apply print_ok_1022].
Qed.
