(** C39, C40: flonums in decimal.  Statements use only FloSpec (and the model's entry points
    print_double and read_real). *)
From Coq Require Import ZArith List Bool Lia.
From Verif Require Import Outcome FloModel FloSpec FloProofs FloProofs2 FloProofs3 FloProofs4 FloProofs5 FloProofs6 FloProofs7 FloProofs8 FloProofs9 FloProofs10.
Import ListNotations.
Local Open Scope Z_scope.
Ltac Zify.zify_post_hook ::= idtac.

(** number->string then string->number gives the same flonum back, for every finite flonum,
    including both zeros *)
Theorem C39_print_read_roundtrip : forall neg m k est, finite_double m k -> (0 < m -> estimate_ok m k est) -> (m = 0 -> k = -1074) ->
  exists text N, print_double neg m k est (-3) 10 = Ok text /\
    forall fuel, (N <= fuel)%nat -> read_real fuel text = Ok (Some (Flonum neg (Fin m k))).
Proof.
  intros neg m k est Hd He Hz. destruct (Z.eq_dec m 0) as [->|Ne].
  - rewrite (Hz eq_refl) in *. destruct neg; eexists _, 0%nat; (split; [reflexivity|]); intros fuel _.
    + assert (L : literal [45;48;46;48] true 0 (-1) 0) by exact (lit_point true [45] [0] [0] 0 [] sign_minus ltac:(repeat constructor; lia) ltac:(repeat constructor; lia) ltac:(left; discriminate) exp_none).
      match goal with |- read_real _ ?t = _ => change t with [45;48;46;48] end. rewrite (read_real_literal fuel _ _ _ _ 0 L) by (change (Z.abs 0) with 0; lia). rewrite compose_zero. reflexivity.
    + assert (L : literal [48;46;48] false 0 (-1) 0) by exact (lit_point false [] [0] [0] 0 [] sign_none ltac:(repeat constructor; lia) ltac:(repeat constructor; lia) ltac:(left; discriminate) exp_none).
      match goal with |- read_real _ ?t = _ => change t with [48;46;48] end. rewrite (read_real_literal fuel _ _ _ _ 0 L) by (change (Z.abs 0) with 0; lia). rewrite compose_zero. reflexivity.
  - assert (Hm : 0 < m) by (destruct Hd as ((_ & ? & _) & _); lia). destruct (printed neg m k est Hd Hm (He Hm)) as (text & f & e & w & P & x & n & N & E & _ & _ & _ & _ & _ & _ & _ & R). exists text, N. auto.
Qed.
(** The printed text is a decimal literal; with P * 10^x its value, P of n digits: n <= 17,
    it reads back (nearest double), no decimal of fewer digits reads back, and no other
    n-digit decimal at this place that reads back is closer *)
Theorem C39_print_shortest : forall neg m k est, finite_double m k -> 0 < m -> estimate_ok m k est ->
  exists text f e w P x n, print_double neg m k est (-3) 10 = Ok text /\ literal text neg f e w /\
    dec_num f e * dec_den x = dec_num P x * dec_den e /\
    10 ^ (n - 1) <= P < 10 ^ n /\ 1 <= n <= 17 /\ reads_as P x m k /\
    (forall P' e', 0 < P' < 10 ^ (n - 1) -> ~ reads_as P' e' m k) /\
    (forall P', reads_as P' x m k -> dec_dist P x m k <= dec_dist P' x m k).
Proof.
  intros neg m k est Hd Hm He. destruct (printed neg m k est Hd Hm He) as (text & f & e & w & P & x & n & N & E & A & B & C & D & F & G & H & _). exists text, f, e, w, P, x, n. auto 10.
Qed.
(** Reading a decimal literal gives the nearest double, ties to even: f below 10^308, the
    written exponent below 325, the value 0 or from 5e-324 to 1.797693134862306e308, and not the one
    tie [least_normal_tie] *)
Theorem C40_read_nearest_partial : forall s neg f e x, literal s neg f e x -> Z.abs x < 325 -> f < 10 ^ 308 ->
  f = 0 \/ (0 < f /\ dec_le 5 (-324) f e /\ dec_le f e 1797693134862306 293 /\ ~ least_normal_tie f e) ->
  exists m k N, finite_double m k /\ reads_as f e m k /\
    forall fuel, (N <= fuel)%nat -> read_real fuel s = Ok (Some (Flonum neg (Fin m k))).
Proof.
  intros s neg f e x L Hx Hf [->|(H0 & Hlo & Hhi & NT)].
  - exists 0, (-1074), 0%nat. split; [split; [unfold is_double; rewrite p53_val; lia|lia]|]. split; [unfold reads_as; rewrite dn_lin; apply nearest_zero; apply dd_pos|]. intros fuel _. rewrite (read_real_literal fuel _ _ _ _ x L Hx), compose_zero. reflexivity.
  - assert (HL : low_ok f e).
    { apply low_from. unfold dec_le, dec_num, dec_den in Hlo. change (Z.max (-324) 0) with 0 in Hlo. change (Z.max (- -324) 0) with 324 in Hlo. rewrite Z.pow_0_r, Z.mul_1_r in Hlo. pose proof (pow2_pos 1074 ltac:(lia)) as Pc. apply (Z.mul_le_mono_pos_r _ _ (2 ^ 1074)); auto. lia. }
    assert (HH : high_ok f e).
    { unfold high_ok. unfold dec_le in Hhi. change (dec_den 293) with 1 in Hhi. rewrite Z.mul_1_r in Hhi. assert (Q : dec_num 1797693134862306 293 * (2 ^ 53 + 48) <= MAXU * 2 ^ 53) by (apply Z.leb_le; vm_compute; reflexivity). pose proof (dd_pos e) as PD. set (M := MAXU) in *. set (A := dec_num 1797693134862306 293) in *. set (D := dec_den e) in *. set (B := dec_num f e) in *. clearbody M A D B. rewrite p53_val in *. pose proof (Z.mul_le_mono_nonneg_r _ _ D ltac:(lia) Q) as Q2. lia. }
    destruct (compose_ok f e ltac:(lia) HL HH NT) as (m & k & N & R & C).
    assert (K : k <= 971). { apply Z.le_ngt. intros Lk. pose proof (nearest_le _ _ _ _ _ _ (dd_pos e) R max_double) as Mx. pose proof R as ((A & B & C') & _). 
      assert (HM : dec_num f e <= units (2 ^ 53 - 1) 971 * dd e). { rewrite <- maxu_units. unfold high_ok in HH. set (M := MAXU) in *. set (N' := dec_num f e) in *. assert (0 <= N') by (unfold N'; rewrite dn_lin; pose proof (dn_pos e); nia). set (D := dd e) in *. clearbody M N' D. rewrite p53_val in *. assert (N' * 9007199254740992 <= M * D * 9007199254740992) by lia. lia. }
      specialize (Mx HM). rewrite <- maxu_units in Mx. unfold units, MAXU in Mx. assert (2 * 2 ^ 2045 <= 2 ^ (k + 1074)). { rewrite <- Z.pow_succ_r by lia. apply Z.pow_le_mono_r; lia. } pose proof (pow2_pos 2045 ltac:(lia)). set (c := 2 ^ 2045) in *. set (d := 2 ^ (k + 1074)) in *. clearbody c d. rewrite p53_val, p52_val in *. assert (4503599627370496 <= m) by lia. assert (4503599627370496 * d <= m * d) by nia. lia. }
    exists m, k, N. split; [split; [apply R|auto]|]. split; auto. intros fuel HN. rewrite (read_real_literal fuel _ _ _ _ x L Hx), C by auto. cbn [bind]. unfold ldexp_exact. now rewrite (proj2 (Z.ltb_ge 971 k)) by lia.
Qed.
(** two finite flonums print alike only if equal *)
Theorem C39_print_injective : forall neg m k est neg' m' k' est' text, finite_double m k -> 0 < m -> estimate_ok m k est -> finite_double m' k' -> 0 < m' -> estimate_ok m' k' est' ->
  print_double neg m k est (-3) 10 = Ok text -> print_double neg' m' k' est' (-3) 10 = Ok text -> neg = neg' /\ m = m' /\ k = k'.
Proof.
  intros neg m k est neg' m' k' est' text Hd Hm He Hd' Hm' He' E E'.
  destruct (C39_print_read_roundtrip neg m k est Hd (fun _ => He) ltac:(lia)) as (t & N & Et & R). destruct (C39_print_read_roundtrip neg' m' k' est' Hd' (fun _ => He') ltac:(lia)) as (t' & N' & Et' & R').
  rewrite E in Et. rewrite E' in Et'. injection Et as <-. injection Et' as <-. specialize (R (max N N') ltac:(lia)). specialize (R' (max N N') ltac:(lia)). rewrite R in R'. injection R' as -> -> ->. auto.
Qed.
(** ** Refuted *)
(** the excluded tie: a literal on which string->number never returns *)
Theorem C40_read_terminates_refuted : exists s f e, literal s false f e 0 /\ least_normal_tie f e /\ forall fuel, read_real fuel s = UB.
Proof. exists tie_text, tie_f, (-1075). split; [exact tie_literal|]. split; [exact tie_is|exact tie_hangs]. Qed.
(** 1.7976931348623158e308 rounds to the greatest double but reads as +inf.0; 2.4800000e-324
    rounds to the least but reads as 0.0; so does 123456789012345678e-330, whose written
    exponent is over the limit *)
Theorem C40_read_nearest_refuted :
  (exists s f e x m k, literal s false f e x /\ finite_double m k /\ reads_as f e m k /\ forall fuel, read_real fuel s = Ok (Some (Flonum false Inf))) /\
  (exists s f e x m k, literal s false f e x /\ Z.abs x < 325 /\ 0 < m /\ finite_double m k /\ reads_as f e m k /\ forall fuel, read_real fuel s = Ok (Some (Flonum false (Fin 0 (-1074))))) /\
  (exists s f e x m k, literal s false f e x /\ f < 10 ^ 18 /\ 10 ^ 10 < m /\ finite_double m k /\ reads_as f e m k /\ forall fuel, read_real fuel s = Ok (Some (Flonum false (Fin 0 (-1074))))).
Proof.
  split; [|split].
  - exists over_text, 17976931348623158, 292, 308, (2 ^ 53 - 1), 971. split; [exact over_literal|]. split; [split; [exact max_double|lia]|]. split; [exact over_reads|exact over_inf].
  - exists under_text, 24800000, (-331), (-324), 1, (-1074). split; [exact under_literal|]. split; [reflexivity|]. split; [lia|]. split; [split; [exact least_double|lia]|]. split; [exact under_reads|exact under_zero].
  - exists cut_text, 123456789012345678, (-330), (-330), 24987932282, (-1074). split; [exact cut_literal|]. split; [reflexivity|]. split; [reflexivity|]. split; [split; [unfold is_double; rewrite p53_val; lia|lia]|]. split; [exact cut_reads|exact cut_zero].
Qed.
(** ** The hypotheses are met *)
(** 0.1 = 7205759403792794 * 2^-56, estimate 0 (and also the least and the greatest double) *)
Example C39_ex_point1 : finite_double 7205759403792794 (-56) /\ estimate_ok 7205759403792794 (-56) 0 /\ print_double false 7205759403792794 (-56) 0 (-3) 10 = Ok [48;46;49].
Proof. split; [|split; [split; vm_compute; [discriminate|reflexivity]|vm_compute; reflexivity]]. unfold finite_double, is_double. rewrite p53_val, p52_val. lia. Qed.
Example C39_ex_least : finite_double 1 (-1074) /\ estimate_ok 1 (-1074) (-323) /\ print_double true 1 (-1074) (-323) (-3) 10 = Ok [45;53;46;48;101;45;51;50;52].
Proof. split; [|split; [split; vm_compute; [discriminate|reflexivity]|vm_compute; reflexivity]]. unfold finite_double, is_double. rewrite p53_val. lia. Qed.
Example C39_ex_greatest : finite_double (2 ^ 53 - 1) 971 /\ estimate_ok (2 ^ 53 - 1) 971 309 /\ print_double false (2 ^ 53 - 1) 971 309 (-3) 10 = Ok (chars [1] ++ 46 :: chars [7;9;7;6;9;3;1;3;4;8;6;2;3;1;5;7] ++ 101 :: chars [3;0;8]).
Proof. split; [split; [exact max_double|lia]|split; [split; vm_compute; [discriminate|reflexivity]|vm_compute; reflexivity]]. Qed.
(** -12.5e-3 reads as the double nearest to -0.0125 *)
Example C40_ex_read : literal [45;49;50;46;53;101;45;51] true 125 (-4) (-3) /\ dec_le 5 (-324) 125 (-4) /\ dec_le 125 (-4) 1797693134862306 293 /\ ~ least_normal_tie 125 (-4) /\
  read_real 5 [45;49;50;46;53;101;45;51] = Ok (Some (Flonum true (Fin 7205759403792794 (-59)))).
Proof.
  split; [exact (lit_point true [45] [1;2] [5] (-3) [101;45;51] sign_minus ltac:(repeat constructor; lia) ltac:(repeat constructor; lia) ltac:(left; discriminate) (exp_some true [45] [3] sign_minus ltac:(repeat constructor; lia) ltac:(discriminate)))|].
  split; [vm_compute; discriminate|]. split; [vm_compute; discriminate|]. split; [apply no_tie; lia|vm_compute; reflexivity].
Qed.

Print Assumptions C39_print_read_roundtrip.
Print Assumptions C39_print_shortest.
Print Assumptions C40_read_nearest_partial.
Print Assumptions C39_print_injective.
Print Assumptions C40_read_terminates_refuted.
Print Assumptions C40_read_nearest_refuted.
