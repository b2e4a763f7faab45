(** * C47, C48: comparison of real numbers *)
From Coq Require Import ZArith QArith List Bool Lia Lqa.
From Verif Require Import Outcome BignumModel IntModel IntSpec RatModel RatSpec FloModel FloSpec InexModel CmpModel CmpSpec CmpProofs2 CmpProofs3 CmpProofs4.
Import ListNotations.
Local Open Scope Z_scope.
Ltac Zify.zify_post_hook ::= idtac.

(** C47: exact numbers are compared as the rationals they are.  Missing: a fixnum against a
    negative ratnum that rounds to the same flonum, see [negative_ratnum_refuted]. *)
Theorem exact_compare_partial x y : wf x -> wf y -> moderate x -> moderate y -> ~ confused x y ->
  exact_cmp x y = Ok (order (rat_of x) (rat_of y)).
Proof. exact (exact_cmp_ok x y). Qed.
(** without exception if neither is negative *)
Theorem exact_compare_nonnegative x y : wf x -> wf y -> moderate x -> moderate y -> (0 <= rat_of x)%Q -> (0 <= rat_of y)%Q ->
  exact_cmp x y = Ok (order (rat_of x) (rat_of y)).
Proof.
  intros Wx Wy Mx My Px Py. apply exact_cmp_ok; auto. destruct x as [[v|b]|n d], y as [[v'|b']|n' d']; cbn [confused]; auto; intros (_ & L & _); (apply (Qlt_not_le _ _ L)); assumption.
Qed.
(** and always for two integers, or two ratnums, or a bignum and a ratnum *)
Theorem exact_compare_kinds x y : wf x -> wf y -> moderate x -> moderate y ->
  (match x, y with EInt (Fix _), ERat _ _ | ERat _ _, EInt (Fix _) => False | _, _ => True end) ->
  exact_cmp x y = Ok (order (rat_of x) (rat_of y)).
Proof. intros Wx Wy Mx My K. apply exact_cmp_ok; auto. destruct x as [[v|b]|n d], y as [[v'|b']|n' d']; cbn [confused]; auto. Qed.
(** Refuted: every fixnum is found less than every negative ratnum that rounds to the same
    flonum, whatever their order *)
Theorem negative_ratnum_refuted v n d : wf (EInt (Fix v)) -> wf (ERat n d) -> moderate (ERat n d) -> same_flonum v (rat_of (ERat n d)) ->
  exact_cmp (EInt (Fix v)) (ERat n d) = Ok (-1) /\ exact_cmp (ERat n d) (EInt (Fix v)) = Ok 1.
Proof.
  intros Wv (Cn & Cd & D1 & G) (Mn & Md) SF. pose proof max_digits as MD. assert (E28 : 2 ^ 28 = 268435456) by reflexivity. assert (E26 : 2 ^ 26 = 67108864) by reflexivity.
  pose proof SF as (Nv & Nq & _). cbn [rat_of] in *. assert (int_of n < 0). { unfold Qlt in Nq. cbn [Qnum Qden] in Nq. lia. }
  assert (E : int_rat_cmp (Fix v) n d = Ok (-1)). { cbn [int_rat_cmp]. apply fix_rat_neg; auto; try lia. apply same_flonum_iff; auto; lia. }
  cbn [exact_cmp]. rewrite E. split; reflexivity.
Qed.
(** -1 and -1 - 2^-100 *)
Definition just_below : exact := ERat (Bn (Big (-1) [1; 2 ^ 36])) (Bn (Big 1 [0; 2 ^ 36])).
Theorem compare_refuted : (rat_of just_below < -1)%Q /\ wf just_below /\ exact_cmp (EInt (Fix (-1))) just_below = Ok (-1).
Proof.
  split; [reflexivity|]. split; [|vm_compute; reflexivity]. cbn [wf just_below]. 
  assert (R : forall s w, s = 1 \/ s = -1 -> 2 ^ 64 <= w -> ~ in_fixnum_range (s * w)). { intros s w S1 W (A & B). change (2 ^ 64) with 18446744073709551616 in W. change (2 ^ 61) with 2305843009213693952 in *. destruct S1; subst; lia. }
  assert (W1 : is_word 1) by (split; [discriminate|reflexivity]). assert (W0 : is_word 0) by (split; [discriminate|reflexivity]). assert (W2 : is_word (2 ^ 36)) by (split; [discriminate|reflexivity]).
  split. { split; [now right|]. split; [now repeat constructor|]. split; [discriminate|]. apply R; [now right|discriminate]. }
  split. { split; [now left|]. split; [now repeat constructor|]. split; [discriminate|]. apply R; [now left|discriminate]. }
  split; reflexivity.
Qed.
(** ** C48: integers and flonums *)
(** exact integers of any size and flonums, infinities included, are compared as the real
    numbers they are, whatever real->rational does *)
Theorem int_flonum_compare r2r a b : real_ok a -> real_ok b -> int_or_flo a -> int_or_flo b ->
  num_cmp_real r2r a b = Ok (xorder (real_value a) (real_value b)).
Proof. exact (int_flo_ok r2r a b). Qed.
(** so among them =, < and <= behave like an order: = is transitive (R7RS 6.2.6) *)
Lemma order_lt p q : order p q = -1 <-> (p < q)%Q.
Proof. unfold order. rewrite Qlt_alt. destruct (p ?= q)%Q; split; intros; try reflexivity; discriminate. Qed.
Lemma order_eq p q : order p q = 0 <-> (p == q)%Q.
Proof. unfold order. rewrite Qeq_alt. destruct (p ?= q)%Q; split; intros; try reflexivity; discriminate. Qed.
Lemma order_le p q : order p q <= 0 <-> (p <= q)%Q.
Proof. unfold order. rewrite Qle_alt. destruct (p ?= q)%Q; split; intros; try congruence; lia. Qed.
Section Order.
Variables (r2r : bool -> Z -> Z -> exact) (a b c : real).
Hypotheses (Ha : real_ok a) (Hb : real_ok b) (Hc : real_ok c) (Ia : int_or_flo a) (Ib : int_or_flo b) (Ic : int_or_flo c).
Theorem int_flonum_eq_transitive : num_eq_real r2r a b = Ok true -> num_eq_real r2r b c = Ok true -> num_eq_real r2r a c = Ok true.
Proof.
  unfold num_eq_real. rewrite !int_flonum_compare by auto. cbn [bind]. intros A B. injection A as A. injection B as B. f_equal. apply Z.eqb_eq in A, B. apply Z.eqb_eq.
  destruct (real_value a), (real_value b), (real_value c); cbn [xorder] in *; try discriminate; auto. apply order_eq in A, B. apply order_eq. now rewrite A.
Qed.
Theorem int_flonum_lt_transitive : num_lt_real r2r a b = Ok true -> num_lt_real r2r b c = Ok true -> num_lt_real r2r a c = Ok true.
Proof.
  unfold num_lt_real. rewrite !int_flonum_compare by auto. cbn [bind]. intros A B. injection A as A. injection B as B. f_equal. apply Z.ltb_lt in A, B. apply Z.ltb_lt.
  assert (L : forall p q, order p q < 0 <-> (p < q)%Q). { intros. rewrite <- order_lt. unfold order. destruct (p ?= q)%Q; lia. }
  destruct (real_value a), (real_value b), (real_value c); cbn [xorder] in *; try lia. apply L in A, B. apply L. now apply Qlt_trans with q0.
Qed.
(** exactly one of a < b, a = b, b < a *)
Theorem int_flonum_trichotomy :
  (num_lt_real r2r a b = Ok true /\ num_eq_real r2r a b = Ok false /\ num_lt_real r2r b a = Ok false) \/
  (num_lt_real r2r a b = Ok false /\ num_eq_real r2r a b = Ok true /\ num_lt_real r2r b a = Ok false) \/
  (num_lt_real r2r a b = Ok false /\ num_eq_real r2r a b = Ok false /\ num_lt_real r2r b a = Ok true).
Proof.
  unfold num_lt_real, num_eq_real. rewrite !int_flonum_compare by auto. cbn [bind]. rewrite <- (xorder_opp (real_value a)).
  assert (T : xorder (real_value a) (real_value b) = -1 \/ xorder (real_value a) (real_value b) = 0 \/ xorder (real_value a) (real_value b) = 1) by (destruct (real_value a), (real_value b); cbn [xorder]; auto; unfold order; destruct (_ ?= _)%Q; auto).
  destruct T as [->|[->| ->]]; auto.
Qed.
End Order.
(** ** Non-vacuity *)
(** 2^53 + 1 against the flonum 2^53, to which it rounds *)
Example int_flonum_close : num_cmp_real (fun _ _ _ => EInt (Fix 0)) (Exact (EInt (Fix 9007199254740993))) (Flo false (Fin 4503599627370496 1)) = Ok 1.
Proof. vm_compute. reflexivity. Qed.
Example int_flonum_close_ok : real_ok (Exact (EInt (Fix 9007199254740993))) /\ real_ok (Flo false (Fin 4503599627370496 1)).
Proof. cbn [real_ok wf moderate canonical nwords flo_ok]. unfold in_fixnum_range, finite_double, is_double. repeat split; try discriminate; try reflexivity; right; discriminate. Qed.
(** 1/3 against 2/5, and -7/2 against -3 *)
Example exact_compare_some : exact_cmp (ERat (Fix 1) (Fix 3)) (ERat (Fix 2) (Fix 5)) = Ok (-1) /\ exact_cmp (ERat (Fix (-7)) (Fix 2)) (EInt (Fix (-3))) = Ok (-1).
Proof. split; vm_compute; reflexivity. Qed.
Example exact_compare_some_ok : wf (ERat (Fix (-7)) (Fix 2)) /\ moderate (ERat (Fix (-7)) (Fix 2)) /\ ~ confused (ERat (Fix (-7)) (Fix 2)) (EInt (Fix (-3))).
Proof.
  split; [cbn [wf canonical]; unfold in_fixnum_range; repeat split; try discriminate; reflexivity|]. split; [cbn [moderate nwords]; split; discriminate|]. intros (_ & _ & m & k & R1 & R2).
  cbn [rat_of Qnum Qden int_of] in *. change (Z.abs (-3)) with 3 in R1. change (Z.abs (-7)) with 7 in R2. change (Z.pos (Z.to_pos 2)) with 2 in R2.
  pose proof (FloProofs3.small_int 3 ltac:(split; [discriminate|reflexivity])) as (m3 & k3 & D3 & U3). pose proof (FloProofs3.nearest_exact _ _ (proj1 D3)) as N3. rewrite U3 in N3. destruct (FloProofs.nearest_unique _ _ _ _ _ _ Z.lt_0_1 R1 N3) as (-> & ->).
  destruct R2 as (_ & R2). pose proof (FloProofs3.small_int 4 ltac:(split; [discriminate|reflexivity])) as (m4 & k4 & D4 & U4). assert (D7 : is_double 7881299347898368 (-51)) by (unfold is_double; repeat split; try discriminate; right; discriminate).
  assert (U7 : units 7881299347898368 (-51) * 2 = 7 * 2 ^ 1074). { unfold units. change (-51 + 1074) with 1023. change 7881299347898368 with (7 * 2 ^ 50). rewrite <- !Z.mul_assoc. f_equal. }
  destruct (R2 _ _ D7) as (Q & _). { intros E. rewrite U3 in E. rewrite E in U7. pose proof CmpProofs.c_pos as P. set (c := 2 ^ 1074) in *. clearbody c. lia. }
  rewrite U3, U7 in Q. pose proof CmpProofs.c_pos as P. set (c := 2 ^ 1074) in *. clearbody c. lia.
Qed.
(** the exception is met *)
Example confused_met : confused (EInt (Fix (-1))) just_below.
Proof.
  assert (R : forall N D m k, 0 < D -> 0 <= N -> rnd N D = Fin m k -> nearest N D m k). { intros N D m k PD PN E. destruct (FloProofs.rnd_nearest N D PD PN) as (m' & k' & H & E'). rewrite E in E'. destruct (971 <? k'); [discriminate|]. injection E' as -> ->. exact H. }
  split; [reflexivity|]. split; [reflexivity|]. exists (2 ^ 52), (-52). split; apply R; try reflexivity; try discriminate; vm_compute; reflexivity.
Qed.

Print Assumptions exact_compare_partial.
Print Assumptions exact_compare_nonnegative.
Print Assumptions exact_compare_kinds.
Print Assumptions negative_ratnum_refuted.
Print Assumptions compare_refuted.
Print Assumptions int_flonum_compare.
Print Assumptions int_flonum_eq_transitive.
Print Assumptions int_flonum_lt_transitive.
Print Assumptions int_flonum_trichotomy.
