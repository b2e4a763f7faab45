(** * C49, C50: rationalize, and exact of a flonum *)
From Coq Require Import ZArith QArith Qabs List Bool Lia Lqa.
From Verif Require Import Outcome BignumModel IntModel IntSpec RatModel RatSpec FloModel FloSpec InexModel InexSpec CmpModel CmpSpec RzModel RzModel2 RzSpec RzSpec2 RzProofs2 RzProofs3 RzProofs4 RzProofs5 RzProofs6.
Import ListNotations.
Local Open Scope Z_scope.
Ltac Zify.zify_post_hook ::= idtac.

(** real->rational with a closed interval: the simplest rational in it *)
Theorem real_to_rational_simplest x dp dm : (0 <= dp)%Q -> (0 <= dm)%Q -> exists r, real_to_rational x dp dm false = Ok r /\ simplest (closed (x - dm) (x + dp)) r.
Proof.
  intros Hp Hm. unfold real_to_rational. destruct (Qlt_bool x 0) eqn:L.
  - apply Qlt_bool_iff in L. destruct (find_closed (- x) dm dp ltac:(lra) Hm Hp) as (r & -> & S1). cbn [bind]. exists (Qred (- r)). split; auto. apply (simplest_opp (closed (- x - dp) (- x + dm))); auto.
    + intros q. unfold closed. split; intros (A & B); split; lra.
    + intros p q E (A & B). split; rewrite <- E; auto.
  - apply Qlt_bool_false in L. now apply find_closed.
Qed.
(** rationalize: the simplest rational differing from x by no more than e *)
Theorem rationalize_simplest x e : (0 <= e)%Q -> exists r, rationalize x e = Ok r /\ simplest (fun q => (Qabs (x - q) <= e)%Q) r.
Proof.
  intros He. destruct (real_to_rational_simplest x e e He He) as (r & E & S1). exists r. unfold rationalize. rewrite (proj2 (Qlt_bool_false e 0) He). split; auto. apply (simplest_ext (closed (x - e) (x + e))); auto. intros q. unfold closed. rewrite Qabs_Qle_condition. split; intros (A & B); split; lra.
Qed.
Theorem rationalize_negative x e : (e < 0)%Q -> rationalize x e = Err.
Proof. intros He. unfold rationalize. now rewrite (proj2 (Qlt_bool_iff e 0) He). Qed.
(** there is only one *)
Theorem simplest_unique (set : Q -> Prop) r r' : (forall q, set q -> (0 <= q)%Q) -> simplest set r -> simplest set r' -> r = r'.
Proof.
  intros P (A & B & C) (A' & B' & C'). destruct r as [a b], r' as [c d]. destruct (C _ _ A'), (C' _ _ A). cbn [Qnum Qden] in *. apply P in A, A'. unfold Qle in A, A'. cbn [Qnum Qden] in A, A'. assert (a = c) by lia. assert (b = d) by lia. congruence.
Qed.
(** with an open interval: the same if the ends, in lowest terms, are far enough apart.
    Missing: other intervals, see the refutations. *)
Theorem real_to_rational_open_partial x dp dm : (0 < dp)%Q -> (0 < dm)%Q -> (0 <= x - dm)%Q ->
  apart (Qnum (Qred (x + dp))) (Z.pos (Qden (Qred (x + dp)))) (Qnum (Qred (x - dm))) (Z.pos (Qden (Qred (x - dm)))) ->
  exists r, real_to_rational x dp dm true = Ok r /\ simplest (opened (x - dm) (x + dp)) r.
Proof. intros Hp Hm H A. unfold real_to_rational. rewrite (proj2 (Qlt_bool_false x 0)) by lra. now apply find_open. Qed.
(** Refuted: (real->rational 1/6 1/6 1/6 #t) is -1/2, outside of (0, 1/3);
    (real->rational 11/30 1/30 1/30 #t) is 3/7, outside of (1/3, 2/5);
    (real->rational 11/28 3/28 3/28 #t) is 2/5, although 1/3 is simpler and in (2/7, 1/2) *)
Theorem open_interval_refuted :
  (real_to_rational (1 # 6) (1 # 6) (1 # 6) true = Ok (-1 # 2) /\ ~ opened (0 # 1) (1 # 3) (-1 # 2)) /\
  (real_to_rational (11 # 30) (1 # 30) (1 # 30) true = Ok (3 # 7) /\ ~ opened (1 # 3) (2 # 5) (3 # 7)) /\
  (real_to_rational (11 # 28) (3 # 28) (3 # 28) true = Ok (2 # 5) /\ ~ simplest (opened (2 # 7) (1 # 2)) (2 # 5)).
Proof.
  split; [|split]; (split; [vm_compute; reflexivity|]).
  - intros (A & _). discriminate A.
  - intros (_ & A). discriminate A.
  - intros (_ & _ & A). destruct (A 1 3%positive) as (B & _); [split; reflexivity|]. cbn in B. lia.
Qed.
(** ** C50: exact of a flonum *)
(** an integral flonum is converted to the integer it is *)
Theorem exact_integral neg m k : finite_double m k -> units m k mod 2 ^ 1074 = 0 ->
  exists n, flonum_exact neg m k = EInt n /\ canonical n /\ int_of n * 2 ^ 1074 = (if neg then - units m k else units m k).
Proof.
  intros Hd M. destruct (integral_value neg m k Hd M) as (z & -> & E & B). destruct (CmpProofs4.int_object_ok (sgn_of neg z)) as (C & I); [unfold sgn_of; destruct neg; lia|]. eexists. split; [reflexivity|]. split; auto. rewrite I, E. fold C1074. unfold sgn_of. destruct neg; ring.
Qed.
(** any other is converted to the simplest of the rationals that are rounded to it *)
Theorem exact_simplest neg m k : finite_double m k -> units m k mod 2 ^ 1074 <> 0 ->
  wf (flonum_exact neg m k) /\ simplest (fun q => nearest_flonum q (neg, Fin m k)) (rat_of (flonum_exact neg m k)).
Proof.
  intros Hd M. assert (Hm : 0 < m). { destruct (Z.eq_dec m 0) as [->|N]; [exfalso; apply M; reflexivity|]. destruct Hd as ((_ & A & _) & _). lia. }
  destruct (nonintegral_value neg m k Hd Hm M) as (r & -> & S1 & B1 & B2). pose proof S1 as (_ & S2 & _). destruct (rat_object_ok r S2 B1 B2) as (W & _ & ->). auto.
Qed.
(** so exact, then inexact, gives the flonum back.  Missing: subnormal flonums, see
    [exact_inexact_refuted]. *)
Theorem exact_inexact_partial neg m k : finite_double m k -> 2 ^ 52 <= m -> get_double (flonum_exact neg m k) = (neg, Fin m k).
Proof. exact (exact_round_trip neg m k). Qed.
(** Refuted: exact of the subnormal flonum (2^51 + 1) * 2^-1074 is a number that inexact
    converts to the next flonum, so the flonum is not = to its own exact value *)
Definition odd_subnormal : Z := 2 ^ 51 + 1.
Theorem exact_inexact_refuted : finite_double odd_subnormal (-1074) /\
  get_double (flonum_exact false odd_subnormal (-1074)) = (false, Fin (odd_subnormal + 1) (-1074)) /\
  num_cmp_real r2r_object (Flo false (Fin odd_subnormal (-1074))) (Exact (flonum_exact false odd_subnormal (-1074))) = Ok (-1).
Proof.
  split; [unfold finite_double, is_double, odd_subnormal; change (2 ^ 51) with 2251799813685248; change (2 ^ 53) with 9007199254740992; change (2 ^ 52) with 4503599627370496; lia|].
  assert (E : get_double (flonum_exact false odd_subnormal (-1074)) = (false, Fin (odd_subnormal + 1) (-1074))) by (vm_compute; reflexivity).
  split; [exact E|].
  assert (T : match flonum_exact false odd_subnormal (-1074) with ERat _ _ => True | _ => False end) by (vm_compute; exact I).
  destruct (flonum_exact false odd_subnormal (-1074)) as [|n d]; [contradiction|]. cbn [num_cmp_real flo_exact_cmp]. rewrite E. reflexivity.
Qed.
(** Non-negative reals - integers, ratnums, flonums, infinities - are ordered as the exact
    numbers that exact makes of them.  Missing: ratnums and flonums between 0 and 2^-1022,
    negative numbers. *)
Theorem real_compare_partial a b : tame a -> tame b -> num_cmp_real r2r_object a b = Ok (xorder (exact_value a) (exact_value b)).
Proof. exact (real_compare_ok a b). Qed.
Lemma xorder_trans a b c : (xorder a b <= 0 -> xorder b c <= 0 -> xorder a c <= 0) /\ (xorder a b = 0 -> xorder b c = 0 -> xorder a c = 0).
Proof.
  destruct a as [|p|], b as [|q|], c as [|r|]; cbn [xorder]; split; intros; try lia.
  - apply CmpProps.order_le. apply Qle_trans with q; now apply CmpProps.order_le.
  - apply CmpProps.order_eq. rewrite (proj1 (CmpProps.order_eq p q)) by auto. now apply CmpProps.order_eq.
Qed.
(** so = and <= are transitive among them *)
Theorem real_eq_transitive a b c : tame a -> tame b -> tame c -> num_eq_real r2r_object a b = Ok true -> num_eq_real r2r_object b c = Ok true -> num_eq_real r2r_object a c = Ok true.
Proof.
  intros Ha Hb Hc. unfold num_eq_real. rewrite !real_compare_ok by auto. cbn [bind]. intros E1 E2. injection E1 as E1. injection E2 as E2. apply Z.eqb_eq in E1, E2. now rewrite (proj2 (xorder_trans _ _ _) E1 E2).
Qed.
Theorem real_le_transitive a b c : tame a -> tame b -> tame c -> num_le_real r2r_object a b = Ok true -> num_le_real r2r_object b c = Ok true -> num_le_real r2r_object a c = Ok true.
Proof.
  intros Ha Hb Hc. unfold num_le_real. rewrite !real_compare_ok by auto. cbn [bind]. intros E1 E2. injection E1 as E1. injection E2 as E2. apply Z.leb_le in E1, E2. now rewrite (proj2 (Z.leb_le _ _) (proj1 (xorder_trans _ _ _) E1 E2)).
Qed.
(** a flonum is = to its exact value *)
Theorem exact_is_equal m k : finite_double m k -> 2 ^ 52 <= m -> num_eq_real r2r_object (Flo false (Fin m k)) (Exact (flonum_exact false m k)) = Ok true.
Proof.
  intros Hd Hm. change (2 ^ 52) with 4503599627370496 in Hm. assert (T : tame (Flo false (Fin m k))) by (split; auto). destruct (tame_flo false m k T) as (W & M & P & N & _). pose proof (exact_normal false m k Hd Hm) as L. rewrite Qabs_pos in L by auto.
  unfold num_eq_real. rewrite real_compare_ok; auto.
  - cbn [exact_value xorder bind]. unfold order. now rewrite (proj1 (Qeq_alt _ _)) by reflexivity.
  - destruct (flonum_exact false m k) as [n|n d]; cbn [tame]; auto. split; [exact W|]. split; auto. unfold Qle, rat_of, inject_Z in P. cbn [Qnum Qden] in P. lia.
Qed.
(** ** The hypotheses are met *)
Example rationalize_third : rationalize (3 # 10) (1 # 10) = Ok (1 # 3). Proof. reflexivity. Qed.
Example rationalize_neg : rationalize (-3 # 10) (1 # 10) = Ok (-1 # 3). Proof. reflexivity. Qed.
Example rationalize_zero : rationalize (1 # 10) (1 # 5) = Ok 0%Q. Proof. reflexivity. Qed.
Example open_apart : apart 3 4 1 4 /\ real_to_rational (1 # 2) (1 # 4) (1 # 4) true = Ok (1 # 2). Proof. split; [unfold apart; cbn; lia|reflexivity]. Qed.
(** 0.1 is 3602879701896397 * 2 * 2^-56; (exact 0.1) is 1/10, so (= 0.1 1/10) *)
Example exact_tenth : flonum_exact false 7205759403792794 (-56) = ERat (Fix 1) (Fix 10). Proof. vm_compute. reflexivity. Qed.
Example exact_half : flonum_exact true 4503599627370496 (-53) = ERat (Fix (-1)) (Fix 2). Proof. vm_compute. reflexivity. Qed.
Example exact_three : flonum_exact false 6755399441055744 (-51) = EInt (Fix 3). Proof. vm_compute. reflexivity. Qed.
Example tenth_tame : tame (Flo false (Fin 7205759403792794 (-56))) /\ tame (Exact (ERat (Fix 1) (Fix 10))) /\
  num_eq_real r2r_object (Flo false (Fin 7205759403792794 (-56))) (Exact (ERat (Fix 1) (Fix 10))) = Ok true.
Proof.
  split; [|split].
  - cbn [tame]. unfold finite_double, is_double. change (2 ^ 53) with 9007199254740992. change (2 ^ 52) with 4503599627370496. split; [lia|right; split; [reflexivity|lia]].
  - cbn [tame wf canonical int_of moderate nwords rat_of]. unfold in_fixnum_range. change (2 ^ 61) with 2305843009213693952. change (2 ^ 26) with 67108864. repeat split; try lia. unfold least_normal, Qle. cbn [Qnum Qden]. rewrite ln_den. change (Z.pos (Z.to_pos 10)) with 10. assert (2 ^ 4 <= c1022) by (apply Z.pow_le_mono_r; lia). lia.
  - vm_compute. reflexivity.
Qed.

Print Assumptions real_to_rational_simplest.
Print Assumptions rationalize_simplest.
Print Assumptions rationalize_negative.
Print Assumptions simplest_unique.
Print Assumptions real_to_rational_open_partial.
Print Assumptions open_interval_refuted.
Print Assumptions exact_integral.
Print Assumptions exact_simplest.
Print Assumptions exact_inexact_partial.
Print Assumptions exact_inexact_refuted.
Print Assumptions real_compare_partial.
Print Assumptions real_eq_transitive.
Print Assumptions real_le_transitive.
Print Assumptions exact_is_equal.
