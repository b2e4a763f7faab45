From Coq Require Import ZArith QArith Qround Qabs List Bool Lia Znumtheory Zquot.
From Verif Require Import Outcome BignumModel BignumProofs BignumProofs2 IntModel IntSpec IntProofs IntProofs2 IntProofs3 RatModel RatSpec RatProofs RatProofs2.
Import ListNotations.
Local Open Scope Z_scope.
Ltac Zify.zify_post_hook ::= idtac.

Lemma den_vd x : wf x -> den x = vd x.
Proof. intros Wx. pose proof (vd_pos x Wx). destruct x as [n|n d]; unfold den, vd in *; cbn [rat_of denom_of Qden inject_Z] in *; [reflexivity|]. destruct (int_of d); lia. Qed.
Lemma num_vn x : Qnum (rat_of x) = vn x. Proof. destruct x; reflexivity. Qed.
Lemma minus_unit_frac p q r : 0 < q -> (r == inject_Z p / inject_Z q)%Q -> minus_unit r <-> exists j, 0 < j /\ p * j = - q.
Proof.
  intros Hq E. unfold minus_unit. split; intros (j & Pj & H); exists j; split; auto.
  - rewrite E in H. assert (X : (inject_Z (p * j) / inject_Z q == inject_Z (-1) / inject_Z 1)%Q). { rewrite inject_Z_mult. rewrite <- H. field. apply inj_nz. lia. } apply frac_inv in X; lia.
  - rewrite E. assert (X : (inject_Z (p * j) / inject_Z q == inject_Z (-1) / inject_Z 1)%Q) by (apply frac_eq; lia). rewrite inject_Z_mult in X. transitivity (inject_Z (p) * inject_Z j / inject_Z q)%Q; [field; apply inj_nz; lia|]. rewrite X. reflexivity.
Qed.
Lemma qsum x y : wf x -> wf y -> (rat_of x + rat_of y == inject_Z (vn x * vd y + vn y * vd x) / inject_Z (vd x * vd y))%Q.
Proof. intros Wx Wy. rewrite (rat_frac x Wx), (rat_frac y Wy), inject_Z_plus, !inject_Z_mult. pose proof (inj_nz (vd x) ltac:(pose proof (vd_pos x Wx); lia)). pose proof (inj_nz (vd y) ltac:(pose proof (vd_pos y Wy); lia)). field. auto. Qed.
Lemma qdiff x y : wf x -> wf y -> (rat_of x - rat_of y == inject_Z (vn x * vd y - vn y * vd x) / inject_Z (vd x * vd y))%Q.
Proof. intros Wx Wy. rewrite (rat_frac x Wx), (rat_frac y Wy). unfold Z.sub. rewrite inject_Z_plus, inject_Z_opp, !inject_Z_mult. pose proof (inj_nz (vd x) ltac:(pose proof (vd_pos x Wx); lia)). pose proof (inj_nz (vd y) ltac:(pose proof (vd_pos y Wy); lia)). field. auto. Qed.
Lemma qprod x y : wf x -> wf y -> (rat_of x * rat_of y == inject_Z (vn x * vn y) / inject_Z (vd x * vd y))%Q.
Proof. intros Wx Wy. rewrite (rat_frac x Wx), (rat_frac y Wy), !inject_Z_mult. pose proof (inj_nz (vd x) ltac:(pose proof (vd_pos x Wx); lia)). pose proof (inj_nz (vd y) ltac:(pose proof (vd_pos y Wy); lia)). field. auto. Qed.
Lemma qquot x y : wf x -> wf y -> vn y <> 0 -> (rat_of x / rat_of y == inject_Z (vn x * vd y) / inject_Z (vd x * vn y))%Q.
Proof. intros Wx Wy Hn. rewrite (rat_frac x Wx), (rat_frac y Wy), !inject_Z_mult. pose proof (inj_nz (vd x) ltac:(pose proof (vd_pos x Wx); lia)). pose proof (inj_nz (vd y) ltac:(pose proof (vd_pos y Wy); lia)). pose proof (inj_nz _ Hn). field. auto. Qed.
Lemma gives_eq r q q' : (q == q')%Q -> gives r q -> gives r q'. Proof. intros E (x & A & B & C). exists x. rewrite <- E. auto. Qed.
Lemma nz_vn x : wf x -> ~ (rat_of x == 0)%Q -> vn x <> 0.
Proof. intros Wx H E. apply H. rewrite (rat_frac x Wx), E. reflexivity. Qed.
Lemma unit_zero x : wf x -> is_fix_zero x = true -> (rat_of x == 0)%Q. Proof. destruct x as [n|n d]; cbn [is_fix_zero]; [|discriminate]. intros C E. rewrite zero_p_ok in E by exact C. apply Z.eqb_eq in E. cbn [rat_of]. rewrite E. reflexivity. Qed.
Lemma unit_one x : wf x -> is_fix_one x = true -> (rat_of x == 1)%Q. Proof. destruct x as [n|n d]; cbn [is_fix_one]; [|discriminate]. intros C E. rewrite one_p_ok in E by exact C. apply Z.eqb_eq in E. cbn [rat_of]. rewrite E. reflexivity. Qed.
Lemma gives_self x q : wf x -> (rat_of x == q)%Q -> gives (Ok x) q. Proof. intros Wx E. exists x. auto. Qed.
Lemma gives_int r z q : returns r z -> (inject_Z z == q)%Q -> gives (do n <- r; Ok (EInt n)) q.
Proof. intros (n & -> & C & V) E. cbn [bind]. exists (EInt n). split; auto. split; auto. cbn [rat_of]. rewrite V. exact E. Qed.
Lemma mod_lt x : wf x -> moderate x -> nwords (numer_of x) < MAX_DIGITS /\ nwords (denom_of x) < MAX_DIGITS.
Proof. intros Wx M. destruct (mod_parts x Wx M). rewrite MAXD. lia. Qed.

Lemma add_sub_ok x y (sub : bool) : wf x -> wf y -> moderate x -> moderate y -> ~ (minus_unit (if sub then rat_of x - rat_of y else rat_of x + rat_of y)%Q /\ (2 ^ 61 | den x * den y)) ->
  gives (ratnum_addsub x y sub) (if sub then rat_of x - rat_of y else rat_of x + rat_of y)%Q.
Proof.
  intros Wx Wy Mx My H. rewrite !den_vd in H by auto. pose proof (vd_pos x Wx). pose proof (vd_pos y Wy). assert (HQ : 0 < vd x * vd y) by nia.
  assert (E : ((if sub then rat_of x - rat_of y else rat_of x + rat_of y) == inject_Z (if sub then vn x * vd y - vn y * vd x else vn x * vd y + vn y * vd x) / inject_Z (vd x * vd y))%Q) by (destruct sub; [apply qdiff|apply qsum]; auto).
  apply (gives_eq _ _ _ (Qeq_sym _ _ E)). apply yields_gives; [lia|]. apply ratnum_addsub_ok; auto. intros (J & D). apply H. split; auto. apply (minus_unit_frac _ _ _ HQ E). exact J.
Qed.
Lemma mul_div_ok x y (div : bool) : wf x -> wf y -> moderate x -> moderate y -> (div = true -> vn y <> 0) ->
  ~ (minus_unit (if div then rat_of x / rat_of y else rat_of x * rat_of y)%Q /\ (2 ^ 61 | den x * (if div then vn y else den y))) ->
  gives (ratnum_muldiv x y div) (if div then rat_of x / rat_of y else rat_of x * rat_of y)%Q.
Proof.
  intros Wx Wy Mx My Nz H. rewrite !den_vd in H by auto. pose proof (vd_pos x Wx). pose proof (vd_pos y Wy).
  set (P := vn x * (if div then vd y else vn y)). set (Q0 := vd x * (if div then vn y else vd y)). assert (HQ : Q0 <> 0) by (unfold Q0; destruct div; [specialize (Nz eq_refl)|]; nia).
  assert (E : ((if div then rat_of x / rat_of y else rat_of x * rat_of y) == inject_Z P / inject_Z Q0)%Q) by (unfold P, Q0; destruct div; [apply qquot|apply qprod]; auto).
  apply (gives_eq _ _ _ (Qeq_sym _ _ E)). apply yields_gives; auto. apply ratnum_muldiv_ok; auto. fold P Q0. intros (A & D). apply H. split; [|exact D].
  assert (E2 : ((if div then rat_of x / rat_of y else rat_of x * rat_of y) == inject_Z (P * Z.sgn Q0) / inject_Z (Z.abs Q0))%Q). { rewrite E. apply frac_eq; [lia|lia|]. destruct (Z.lt_total Q0 0) as [L|[L|L]]; [rewrite Z.sgn_neg, Z.abs_neq by lia; ring|lia|rewrite Z.sgn_pos, Z.abs_eq by lia; ring]. }
  apply (minus_unit_frac (P * Z.sgn Q0) (Z.abs Q0)); auto; [lia|]. rewrite A. apply Z.divide_abs_r in D. destruct D as (j & D). exists j. assert (0 < 2 ^ 61) by reflexivity. split; [nia|lia].
Qed.
Lemma rat_add_ok x y : wf x -> wf y -> moderate x -> moderate y -> ~ (minus_unit (rat_of x + rat_of y)%Q /\ (2 ^ 61 | den x * den y)) -> gives (rat_add x y) (rat_of x + rat_of y)%Q.
Proof.
  intros Wx Wy Mx My H. pose proof (mod_lt x Wx Mx) as (A & _). pose proof (mod_lt y Wy My) as (B & _). pose proof (add_sub_ok x y false Wx Wy Mx My H) as G. destruct x as [a|n d], y as [b|n' d']; cbn [rat_add numer_of] in *; auto.
  - destruct (is_fix_zero (EInt a)) eqn:E; auto. apply gives_self; auto. rewrite (unit_zero _ Wx E). ring.
  - destruct (is_fix_zero (EInt b)) eqn:E; auto. apply gives_self; auto. rewrite (unit_zero _ Wy E). ring.
Qed.
Lemma rat_sub_ok x y : wf x -> wf y -> moderate x -> moderate y -> ~ (minus_unit (rat_of x - rat_of y)%Q /\ (2 ^ 61 | den x * den y)) -> gives (rat_sub x y) (rat_of x - rat_of y)%Q.
Proof.
  intros Wx Wy Mx My H. pose proof (mod_lt x Wx Mx) as (A & _). pose proof (mod_lt y Wy My) as (B & _). pose proof (add_sub_ok x y true Wx Wy Mx My H) as G. destruct x as [a|n d], y as [b|n' d']; cbn [rat_sub numer_of] in *; auto.
  - destruct (is_fix_zero (EInt b)) eqn:E; auto. apply gives_self; auto. rewrite (unit_zero _ Wy E). ring.
Qed.
Lemma rat_mul_ok x y : wf x -> wf y -> moderate x -> moderate y -> ~ (minus_unit (rat_of x * rat_of y)%Q /\ (2 ^ 61 | den x * den y)) -> gives (rat_mul x y) (rat_of x * rat_of y)%Q.
Proof.
  intros Wx Wy Mx My H. destruct (mod_parts x Wx Mx) as (A & _). destruct (mod_parts y Wy My) as (B & _). pose proof (mul_div_ok x y false Wx Wy Mx My ltac:(discriminate) H) as G. destruct x as [a|n d], y as [b|n' d']; cbn [rat_mul numer_of] in *; auto.
  - destruct (is_fix_zero (EInt a)) eqn:E. { apply gives_self; auto. rewrite (unit_zero _ Wx E). ring. } destruct (is_fix_one (EInt a)) eqn:E1; auto. apply gives_self; auto. rewrite (unit_one _ Wx E1). ring.
  - destruct (is_fix_zero (EInt b)) eqn:E. { apply gives_self; auto. rewrite (unit_zero _ Wy E). ring. } destruct (is_fix_one (EInt b)) eqn:E1; auto. apply gives_self; auto. rewrite (unit_one _ Wy E1). ring.
Qed.
Lemma make_gives n d q : canonical n -> canonical d -> nwords n < MAX_DIGITS -> nwords d < MAX_DIGITS -> int_of d <> 0 -> (q == inject_Z (int_of n) / inject_Z (int_of d))%Q -> ~ (minus_unit q /\ (2 ^ 61 | int_of d)) -> gives (make_rational n d) q.
Proof.
  intros Cn Cd Ln Ld Hd E H. apply (gives_eq _ _ _ (Qeq_sym _ _ E)). apply yields_gives; auto. apply make_rational_ok; auto. intros (A & D). apply H. split; auto.
  assert (E2 : (q == inject_Z (int_of n * Z.sgn (int_of d)) / inject_Z (Z.abs (int_of d)))%Q). { rewrite E. apply frac_eq; [lia|lia|]. destruct (Z.lt_total (int_of d) 0) as [L|[L|L]]; [rewrite Z.sgn_neg, Z.abs_neq by lia; ring|lia|rewrite Z.sgn_pos, Z.abs_eq by lia; ring]. }
  apply (minus_unit_frac (int_of n * Z.sgn (int_of d)) (Z.abs (int_of d)) _ ltac:(lia) E2). rewrite A. apply Z.divide_abs_r in D. destruct D as (j & D). exists j. assert (0 < 2 ^ 61) by reflexivity. split; [nia|lia].
Qed.
Lemma rat_div_ok x y : wf x -> wf y -> moderate x -> moderate y -> ~ (rat_of y == 0)%Q -> ~ (minus_unit (rat_of x / rat_of y)%Q /\ (2 ^ 61 | den x * Qnum (rat_of y))) -> gives (rat_div x y) (rat_of x / rat_of y)%Q.
Proof.
  intros Wx Wy Mx My Hy H. pose proof (nz_vn y Wy Hy) as Nz. destruct (mod_parts x Wx Mx) as (A & A'). destruct (mod_parts y Wy My) as (B & B'). pose proof MAXD as MD. pose proof (qquot x y Wx Wy Nz) as QE. pose proof (vd_pos x Wx) as Px. pose proof (vd_pos y Wy) as Py. rewrite num_vn, den_vd in H by auto.
  destruct x as [a|n d], y as [b|n' d']; cbn [rat_div].
  - assert (G : gives (make_rational a b) (rat_of (EInt a) / rat_of (EInt b))%Q). { unfold vn, vd in *. cbn [numer_of denom_of int_of wf moderate] in *. rewrite Z.mul_1_r in QE. replace (1 * int_of b) with (int_of b) in QE, H by ring. apply make_gives; auto; lia. }
    unfold vn in Nz. cbn [numer_of wf] in *.
    assert (Zb : zero_p b = false) by (rewrite zero_p_ok by exact Wy; now apply Z.eqb_neq).
    assert (Za : zero_p a = true -> gives (Ok (EInt a)) (rat_of (EInt a) / rat_of (EInt b))%Q). { intros E. apply gives_self; auto. rewrite (unit_zero (EInt a) Wx E). unfold Qdiv. ring. }
    assert (Ob : one_p b = true -> gives (Ok (EInt a)) (rat_of (EInt a) / rat_of (EInt b))%Q). { intros E. apply gives_self; auto. rewrite (unit_one (EInt b) Wy E). field. }
    destruct a as [va|ba], b as [vb|bb]; cbn [zero_p one_p] in *; try rewrite Zb; auto.
    + destruct (va =? 0); auto. destruct (vb =? 1); auto.
    + destruct (va =? 0); auto.
    + destruct (vb =? 1); auto.
  - unfold vn, vd in *. cbn [numer_of denom_of] in *. cbn [int_of] in QE. destruct Wy as (Cn & Cd & D1 & _). destruct (mul_sz a d' Wx Cd ltac:(lia)) as (m & -> & Cm & Vm & Lm). cbn [bind]. cbn [int_of] in H. replace (1 * int_of n') with (int_of n') in H, QE by ring. apply make_gives; auto; try lia. rewrite QE, Vm. reflexivity.
  - unfold vn, vd in *. cbn [numer_of denom_of] in *. cbn [int_of] in QE. destruct Wx as (Cn & Cd & D1 & Gc).
    assert (G : gives (do m <- num_mul d b; make_rational n m) (rat_of (ERat n d) / rat_of (EInt b))%Q). { destruct (mul_sz d b Cd Wy ltac:(lia)) as (m & -> & Cm & Vm & Lm). cbn [bind]. replace (int_of n * 1) with (int_of n) in QE by ring. apply make_gives; auto; try lia; [rewrite QE, Vm; reflexivity|rewrite Vm; exact H]. }
    destruct b as [vb|bb]; auto. cbn [wf] in Wy. rewrite zero_p_ok by exact Wy. rewrite (proj2 (Z.eqb_neq _ 0)) by exact Nz. destruct (one_p (Fix vb)) eqn:E; auto. apply gives_self; [cbn [wf]; auto|]. rewrite (unit_one (EInt (Fix vb)) Wy E). field.
  - apply (mul_div_ok (ERat n d) (ERat n' d') true); auto. rewrite den_vd by auto. exact H.
Qed.
Lemma rat_div_zero x y : wf x -> wf y -> (rat_of y == 0)%Q -> (forall a, x = EInt a -> exists v, a = Fix v) \/ True -> rat_div x y = Err.
Proof.
  intros Wx Wy E _. assert (Vy : vn y = 0). { rewrite (rat_frac y Wy) in E. pose proof (vd_pos y Wy). change 0%Q with (inject_Z 0) in E. assert (X : (inject_Z (vn y) / inject_Z (vd y) == inject_Z 0 / inject_Z 1)%Q) by (rewrite E; reflexivity). apply frac_inv in X; lia. }
  destruct y as [b|n d]. 2:{ exfalso. destruct Wy as (_ & _ & D1 & G). unfold vn in Vy. cbn [numer_of] in Vy. rewrite Vy, Z.gcd_0_l in G. lia. }
  unfold vn in Vy. cbn [numer_of wf] in *. assert (Zb : zero_p b = true) by (rewrite zero_p_ok by exact Wy; now apply Z.eqb_eq). destruct b as [vb|bb]; [|discriminate]. cbn [zero_p] in Zb. destruct x as [[va|ba]|n d]; cbn [rat_div zero_p]; now rewrite Zb.
Qed.
Lemma neg_safe n d : 1 < int_of d -> Z.gcd (int_of n) (int_of d) = 1 -> safe (int_of n) (int_of d) /\ safe (- int_of n) (int_of d) /\ safe (int_of d) (int_of n).
Proof.
  intros D1 G. assert (X : forall c, (c | int_of n) -> (c | int_of d) -> (c | 1)) by (intros; rewrite <- G; now apply Z.gcd_greatest). assert (B : ~ (2 ^ 61 | 1)). { intros H. apply Z.divide_1_r in H. destruct H as [H|H]; vm_compute in H; discriminate. }
  assert (P : 0 < 2 ^ 61) by reflexivity. unfold safe. rewrite Z.sgn_pos by lia. set (c := 2 ^ 61) in *. clearbody c.
  repeat split; intros (A & D); apply B; apply X; auto.
  - exists (-1). lia.
  - exists 1. lia.
  - destruct (Z.lt_total (int_of n) 0) as [L|[L|L]]; [rewrite Z.sgn_neg in A by lia|rewrite L in G; rewrite Z.gcd_0_l in G; lia|rewrite Z.sgn_pos in A by lia; lia]. exists 1. lia.
Qed.
Lemma rat_negate_ok x : wf x -> moderate x -> gives (rat_negate x) (- rat_of x)%Q.
Proof.
  intros Wx M. destruct (mod_parts x Wx M) as (A & B). pose proof MAXD. destruct x as [n|n d]; cbn [rat_negate].
  - destruct (num_negate_ok n Wx) as (C & V). exists (EInt (num_negate n)). split; auto. split; auto. cbn [rat_of]. rewrite V, inject_Z_opp. reflexivity.
  - pose proof Wx as (Cn & Cd & D1 & G). cbn [numer_of denom_of] in *. destruct (negate_size n Cn) as (C & V & L). assert (E : (inject_Z (int_of (num_negate n)) / inject_Z (int_of d) == - rat_of (ERat n d))%Q). { rewrite (rat_frac _ Wx). unfold vn, vd. cbn [numer_of denom_of]. rewrite V, inject_Z_opp. field. apply inj_nz. lia. }
    apply (gives_eq _ _ _ E). apply yields_gives; [lia|]. apply make_rational_ok; auto; try lia. rewrite V. apply (neg_safe n d); auto.
Qed.
Lemma rat_abs_ok x : wf x -> moderate x -> gives (rat_abs x) (Qabs (rat_of x)).
Proof.
  intros Wx M. destruct x as [n|n d]; cbn [rat_abs].
  - destruct (num_abs_ok n Wx) as (C & V & _). exists (EInt (num_abs n)). split; auto. split; auto. cbn [rat_of]. rewrite V. unfold inject_Z, Qabs. reflexivity.
  - pose proof Wx as (Cn & Cd & D1 & G). rewrite num_sign_ok by auto. pose proof (rat_negate_ok _ Wx M) as H. cbn [rat_negate] in H. destruct (Z.ltb_spec (Z.sgn (int_of n)) 0) as [L|L].
    + apply (gives_eq _ _ _ (Qeq_sym _ _ (Qabs_neg (rat_of (ERat n d)) ltac:(unfold Qle; cbn [rat_of Qnum Qden]; destruct (Z.sgn_spec (int_of n)) as [[]|[[]|[]]]; lia)))). exact H.
    + apply gives_self; auto. symmetry. apply Qabs_pos. unfold Qle. cbn [rat_of Qnum Qden]. destruct (Z.sgn_spec (int_of n)) as [[]|[[]|[]]]; lia.
Qed.
Lemma rat_reciprocal_ok x : wf x -> moderate x -> ~ (rat_of x == 0)%Q -> gives (rat_reciprocal x) (/ rat_of x)%Q.
Proof.
  intros Wx M Nz. pose proof (nz_vn x Wx Nz) as Hn. destruct (mod_parts x Wx M) as (A & B). pose proof MAXD. pose proof (vd_pos x Wx) as Pd. destruct (wf_parts x Wx) as (Cn & Cd & G).
  assert (E : (inject_Z (vd x) / inject_Z (vn x) == / rat_of x)%Q). { rewrite (rat_frac _ Wx). field. split; apply inj_nz; lia. } apply (gives_eq _ _ _ E). 
  assert (Y : yields (make_rational (denom_of x) (numer_of x)) (vd x) (vn x)). { apply make_rational_ok; auto; try lia. destruct x as [n|n d]; cbn [numer_of denom_of] in *. - cbn [int_of]. intros (K & _). assert (2 < 2 ^ 61) by reflexivity. set (c := 2 ^ 61) in *. clearbody c. pose proof (Z.sgn_spec (int_of n)) as [[]|[[]|[]]]; lia. - destruct Wx as (_ & _ & D1 & G'). apply (neg_safe n d); auto. }
  apply yields_gives; auto. destruct x; exact Y.
Qed.

(** ** rounding *)
Lemma q_floor n d : 0 < d -> Qfloor (n # Z.to_pos d) = n / d. Proof. intros H. unfold Qfloor. rewrite Z2Pos.id by auto. reflexivity. Qed.
Lemma quot_neg n d : n < 0 -> 0 < d -> Z.quot n d = - ((- n) / d) /\ Z.rem n d = - ((- n) mod d).
Proof. intros. replace n with (- - n) at 1 3 by ring. rewrite Z.quot_opp_l, Z.rem_opp_l by lia. rewrite Z.quot_div_nonneg, Z.rem_mod_nonneg by lia. auto. Qed.
Definition rounds (mode : round_mode) (n d z : Z) : Prop :=
  match mode with
  | Floor => z = n / d
  | Ceil => z = - ((- n) / d)
  | Trunc => z = Z.quot n d
  | Round => 2 * Z.abs (z * d - n) <= d /\ (2 * Z.abs (z * d - n) = d -> Z.even z = true)
  end.
Lemma add_off q o : canonical q -> nwords q < MAX_DIGITS -> -1 <= o <= 1 -> returns (if o =? 0 then Ok q else num_add q (Fix o)) (int_of q + o).
Proof. intros C L Ho. destruct (Z.eqb_spec o 0) as [->|N]; [exists q; rewrite Z.add_0_r; auto|]. apply num_add_ok; auto; first [apply can_fix; lia|cbn [nwords]; rewrite MAXD; lia|idtac]. Qed.
Lemma rat_round_ok x mode : wf x -> moderate x -> exists z, returns (rat_round x mode) z /\ rounds mode (vn x) (vd x) z.
Proof.
  intros Wx M. destruct (mod_parts x Wx M) as (A & B). pose proof MAXD as MD. destruct x as [n|n d]; cbn [rat_round].
  { exists (int_of n). split; [exists n; auto|]. unfold vn, vd. cbn [numer_of denom_of int_of]. destruct mode; cbn [rounds]; rewrite ?Z.div_1_r, ?Z.quot_1_r; try lia. }
  destruct Wx as (Cn & Cd & D1 & G). cbn [numer_of denom_of] in *. unfold vn, vd. cbn [numer_of denom_of].
  destruct (num_quotient_ok n d Cn Cd ltac:(lia) ltac:(lia)) as (q & r & E & Cq & Cr & Vq & Vr).
  { unfold quot_exception. intros (E1 & [E2|E2]); [lia|]. rewrite E1, E2 in G. vm_compute in G. discriminate. }
  rewrite E. cbn [bind fst snd]. rewrite zero_p_ok, num_sign_ok by auto. set (N := int_of n) in *. set (D := int_of d) in *.
  assert (Rz : int_of r <> 0). { rewrite Vr. intros Z0. apply Z.rem_divide in Z0; [|lia]. assert (X : (D | 1)) by (rewrite <- G; apply Z.gcd_greatest; [exact Z0|exists 1; ring]). apply Z.divide_1_r in X. lia. }
  rewrite (proj2 (Z.eqb_neq _ 0)) by auto.
  pose proof (Z.quot_rem' N D) as QR. assert (N0 : N <> 0). { intros E0. rewrite E0, Z.gcd_0_l in G. lia. }
  assert (Bq : Z.abs (int_of q) <= Z.abs N). { rewrite Vq. rewrite <- Z.quot_abs by lia. rewrite Z.quot_div_nonneg by lia. apply Z.div_le_upper_bound; [lia|]. nia. }
  assert (Lq : nwords q < MAX_DIGITS). { pose proof (nwords_mono q n Cq Cn Bq). lia. }
  assert (Sg : (Z.sgn N <? 0) = (N <? 0)). { destruct (Z.sgn_spec N) as [(? & ->)|[(? & ->)|(? & ->)]]; destruct (Z.ltb_spec N 0); reflexivity || lia. } rewrite Sg.
  (* fractional part *)
  assert (K : (N < 0 /\ int_of q = - ((- N) / D) /\ int_of r = - ((- N) mod D)) \/ (0 < N /\ int_of q = N / D /\ int_of r = N mod D)).
  { destruct (Z.lt_total N 0) as [L|[L|L]]; [left|lia|right]. - destruct (quot_neg N D L ltac:(lia)). lia. - rewrite Vq, Vr, Z.quot_div_nonneg, Z.rem_mod_nonneg by lia. auto. }
  assert (Out : forall o, -1 <= o <= 1 -> rounds mode N D (int_of q + o) -> exists z, returns (if o =? 0 then Ok q else num_add q (Fix o)) z /\ rounds mode N D z) by (intros o Ho R; exists (int_of q + o); split; [apply add_off; auto|exact R]).
  assert (F : N / D = int_of q + (if N <? 0 then -1 else 0)).
  { destruct K as [(L & Eq & Er)|(L & Eq & Er)]; [rewrite (proj2 (Z.ltb_lt N 0)) by auto|rewrite (proj2 (Z.ltb_ge N 0)) by lia; lia]. pose proof (Z.div_mod (- N) D ltac:(lia)) as DM. pose proof (Z.mod_pos_bound (- N) D ltac:(lia)) as MB. symmetry. apply (Z.div_unique N D _ (D - (- N) mod D)); [left; lia|]. rewrite Eq. lia. }
  assert (Cl : - ((- N) / D) = int_of q + (if N <? 0 then 0 else 1)).
  { destruct K as [(L & Eq & Er)|(L & Eq & Er)]; [rewrite (proj2 (Z.ltb_lt N 0)) by auto; lia|rewrite (proj2 (Z.ltb_ge N 0)) by lia]. pose proof (Z.div_mod N D ltac:(lia)) as DM. pose proof (Z.mod_pos_bound N D ltac:(lia)) as MB. assert (X : (- N) / D = - (N / D) - 1). { symmetry. apply (Z.div_unique (- N) D _ (D - N mod D)); [left; lia|]. lia. } rewrite X, Eq. lia. }
  destruct mode; cbn [bind].
  - apply Out; [destruct (N <? 0); lia|]. cbn [rounds]. lia.
  - apply Out; [destruct (N <? 0); lia|]. cbn [rounds]. lia.
  - apply (Out 0); [lia|]. cbn [rounds]. lia.
  - destruct (num_abs_ok r Cr) as (Ca & Va & La). assert (Lr : nwords r <= nwords d). { apply nwords_mono; auto. fold D. rewrite Vr. pose proof (Z.rem_bound_abs N D ltac:(lia)). lia. }
    destruct (num_mul_ok (num_abs r) (Fix 2) Ca ltac:(apply can_fix; lia) ltac:(cbn [nwords]; lia)) as (r2 & E2 & C2 & V2). rewrite E2. cbn [bind]. rewrite num_cmp_ok by auto. cbn [bind]. rewrite V2, Va. cbn [int_of]. fold D. unfold cmpz. rewrite num_oddp_ok by auto.
    assert (Ab : Z.abs (int_of r) = if N <? 0 then - int_of r else int_of r). { destruct K as [(L & Eq & Er)|(L & Eq & Er)]; [rewrite (proj2 (Z.ltb_lt N 0)) by auto|rewrite (proj2 (Z.ltb_ge N 0)) by lia]; [pose proof (Z.mod_pos_bound (- N) D ltac:(lia)) | pose proof (Z.mod_pos_bound N D ltac:(lia))]; lia. }
    assert (Rb : 0 < Z.abs (int_of r) < D) by (rewrite Vr in *; pose proof (Z.rem_bound_abs N D ltac:(lia)); lia).
    assert (QR2 : N = D * int_of q + int_of r) by (rewrite Vq, Vr; exact QR).
    destruct (Z.compare_spec D (Z.abs (int_of r) * 2)) as [Ec|Lc|Gc]; cbn [Z.ltb Z.compare].
    + cbn [bind]. destruct (Z.odd (int_of q)) eqn:Od.
      * apply Out; [destruct (N <? 0); lia|]. cbn [rounds]. rewrite Ab in *. destruct (N <? 0).
        -- replace ((int_of q + -1) * D - N) with (- D - int_of r) by lia. split; [lia|]. intros _. change (-1) with (- (1)). rewrite Z.add_opp_r, Z.even_sub, <- Z.negb_odd, Od. reflexivity.
        -- replace ((int_of q + 1) * D - N) with (D - int_of r) by lia. split; [lia|]. intros _. rewrite Z.even_add, <- Z.negb_odd, Od. reflexivity.
      * apply (Out 0); [lia|]. cbn [rounds]. rewrite Z.add_0_r. replace (int_of q * D - N) with (- int_of r) by lia. rewrite Z.abs_opp. split; [lia|]. intros _. rewrite <- Z.negb_odd, Od. reflexivity.
    + cbn [bind]. apply Out; [destruct (N <? 0); lia|]. cbn [rounds]. rewrite Ab in *. destruct (N <? 0).
      * replace ((int_of q + -1) * D - N) with (- D - int_of r) by lia. split; [lia|]. intros. lia.
      * replace ((int_of q + 1) * D - N) with (D - int_of r) by lia. split; [lia|]. intros. lia.
    + cbn [bind]. apply (Out 0); [lia|]. cbn [rounds]. rewrite Z.add_0_r. replace (int_of q * D - N) with (- int_of r) by lia. rewrite Z.abs_opp. split; [lia|]. intros. lia.
Qed.
