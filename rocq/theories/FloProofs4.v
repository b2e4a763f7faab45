(** The digits print_double generates *)
From Coq Require Import ZArith List Bool Lia.
From Verif Require Import Outcome FloModel FloSpec FloProofs.
Import ListNotations.
Local Open Scope Z_scope.
Ltac Zify.zify_post_hook ::= idtac.

Definition digit (d : Z) : Prop := 0 <= d <= 9.
(** the number the digits write *)
Fixpoint dval (ds : list Z) (acc : Z) : Z := match ds with [] => acc | d :: r => dval r (acc * 10 + d) end.
Definition len (ds : list Z) : Z := Z.of_nat (length ds).
Lemma len_cons d ds : len (d :: ds) = len ds + 1. Proof. unfold len. cbn [length]. lia. Qed.
Lemma len_nonneg ds : 0 <= len ds. Proof. unfold len. lia. Qed.
Lemma dval_acc ds : forall acc, dval ds acc = acc * 10 ^ len ds + dval ds 0.
Proof.
  induction ds as [|d ds IH]; intros acc; [cbn [dval]; change (len []) with 0; rewrite Z.pow_0_r; lia|]. cbn [dval]. rewrite IH, (IH (0 * 10 + d)). rewrite len_cons, Z.pow_add_r by (pose proof (len_nonneg ds); lia). rewrite Z.pow_1_r. ring.
Qed.
Lemma dval_cons d ds : dval (d :: ds) 0 = d * 10 ^ len ds + dval ds 0.
Proof. cbn [dval]. rewrite dval_acc. f_equal. Qed.
Lemma dval_range ds : Forall digit ds -> 0 <= dval ds 0 < 10 ^ len ds.
Proof.
  induction 1 as [|d ds H _ IH]; [cbn; lia|]. rewrite dval_cons, len_cons, Z.pow_add_r, Z.pow_1_r by (pose proof (len_nonneg ds); lia). unfold digit in H. nia.
Qed.
(** the generated text: a point after digit number [point], but not at the end *)
Fixpoint dots (point digs : Z) (ds : list Z) : list Z :=
  match ds with
  | [] => []
  | [d] => [digit_char d]
  | d :: r => digit_char d :: (if digs =? point then [ch_dot] else []) ++ dots point (digs + 1) r
  end.
Definition le_if (b : bool) (x y : Z) : Prop := if b then x <= y else x < y.
(** P / 10^j within m- below and m+ above r/s *)
Definition inside (b : bool) (r s mm mp P j : Z) : Prop := le_if b ((r - mm) * 10 ^ j) (P * s) /\ le_if b (P * s) ((r + mp) * 10 ^ j).
Definition outside (b : bool) (r s mm mp : Z) : Prop := le_if (negb b) mm r /\ le_if (negb b) (r + mp) s.
Lemma mplus10 mm b : mplus (mm * 10) b = mplus mm b * 10. Proof. destruct b; cbn [mplus]; ring. Qed.
Lemma mplus_pos mm b : 0 < mm -> mm <= mplus mm b. Proof. destruct b; cbn [mplus]; lia. Qed.
Lemma inside_step b r s mm mp q r' P j : 0 <= j -> r * 10 = q * s + r' -> inside b r s mm mp (q * 10 ^ j + P) (j + 1) <-> inside b r' s (mm * 10) (mp * 10) P j.
Proof.
  intros Hj E. unfold inside, le_if. rewrite Z.pow_add_r, Z.pow_1_r by lia. set (t := 10 ^ j).
  assert (E1 : (r - mm) * (t * 10) = q * t * s + (r' - mm * 10) * t). { replace ((r - mm) * (t * 10)) with ((r * 10 - mm * 10) * t) by ring. rewrite E. ring. }
  assert (E2 : (r + mp) * (t * 10) = q * t * s + (r' + mp * 10) * t). { replace ((r + mp) * (t * 10)) with ((r * 10 + mp * 10) * t) by ring. rewrite E. ring. }
  rewrite E1, E2. replace ((q * t + P) * s) with (q * t * s + P * s) by ring. destruct b; lia.
Qed.
Lemma print_digits_S fuel b r s mm mp2 point digs : print_digits (S fuel) b r s mm mp2 point digs =
  let q := r * 10 / s in let r' := (r * 10) mod s in
  let tc1 := if b then r' <=? mm * 10 else r' <? mm * 10 in
  let tc2 := if b then s <=? r' + mplus (mm * 10) mp2 else s <? r' + mplus (mm * 10) mp2 in
  let up := if 9 <? q + 1 then UB else Ok ([digit_char (q + 1)], digs) in
  if negb tc1 then
    if negb tc2 then do x <- print_digits fuel b r' s (mm * 10) mp2 point (digs + 1); Ok (digit_char q :: (if digs =? point then [ch_dot] else []) ++ fst x, snd x)
    else up
  else if negb tc2 then Ok ([digit_char q], digs) else if (if b then r' + r' <=? s else r' + r' <? s) then Ok ([digit_char q], digs) else up.
Proof. reflexivity. Qed.

(** What is known of the digits [ds], P = dval ds, n = len ds *)
Definition run_ok (b : bool) (r s mm mp : Z) (ds : list Z) : Prop :=
  let P := dval ds 0 in let n := len ds in
  ds <> [] /\ Forall digit ds /\ inside b r s mm mp P n /\
  (forall P', inside b r s mm mp P' n -> Z.abs (P * s - r * 10 ^ n) <= Z.abs (P' * s - r * 10 ^ n)) /\
  (forall j P', 0 <= j < n -> ~ inside b r s mm mp P' j) /\
  (le_if b s ((r + mp) * 10) -> 10 ^ (n - 1) <= P) /\
  (le_if b s ((r + mp) * 10) -> 2 <= n -> le_if (negb b) s ((r - mm) * 10)).
Lemma run_single b r s mm mp d : outside b r s mm mp -> 0 < s -> digit d -> inside b r s mm mp d 1 -> (forall P', inside b r s mm mp P' 1 -> Z.abs (d * s - r * 10) <= Z.abs (P' * s - r * 10)) -> (le_if b s ((r + mp) * 10) -> 1 <= d) -> run_ok b r s mm mp [d].
Proof.
  intros Ho Hs Hd I C F. unfold run_ok. change (len [d]) with 1. change (dval [d] 0) with d. change (10 ^ (1 - 1)) with 1. change (10 ^ 1) with 10.
  split; [discriminate|]. split; [now constructor|]. split; [auto|]. split; [auto|]. split; [|split; [auto|lia]].
  intros j P' Hj. assert (j = 0) as -> by lia. unfold inside. rewrite Z.pow_0_r, !Z.mul_1_r. destruct Ho as (O1 & O2). intros (I1 & I2). unfold le_if in *. destruct b; cbn [negb] in *; (assert (1 <= P') by nia; assert (P' < 1) by nia; lia).
Qed.
Lemma run_ok_main b s mp2 : 0 < s -> forall fuel r mm, 0 < r -> 0 < mm -> outside b r s mm (mplus mm mp2) -> s < mm * 2 ^ Z.of_nat fuel ->
  exists ds, (forall point digs, print_digits fuel b r s mm mp2 point digs = Ok (dots point digs ds, digs + len ds - 1)) /\ run_ok b r s mm (mplus mm mp2) ds.
Proof.
  intros Hs. induction fuel as [|fuel IH]; intros r mm Hr Hm Ho Hf. { exfalso. cbn in Hf. pose proof (mplus_pos mm mp2 Hm). destruct Ho as (O1 & O2). unfold le_if in *. destruct b; cbn [negb] in *; lia. }
  pose proof (fun point digs => print_digits_S fuel b r s mm mp2 point digs) as Unf. cbv zeta in Unf. pose proof (mplus_pos mm mp2 Hm) as Hmp. rewrite mplus10 in Unf. set (mp := mplus mm mp2) in *.
  pose proof (Z.div_mod (r * 10) s ltac:(lia)) as E. pose proof (Z.mod_pos_bound (r * 10) s Hs) as Hr'. set (q := r * 10 / s) in *. set (r' := (r * 10) mod s) in *.
  assert (E' : r * 10 = q * s + r') by lia. assert (Hq : 0 <= q) by (apply Z.div_pos; lia).
  assert (Q9 : q <= 9). { destruct Ho as (O1 & O2). unfold le_if in *. assert (r < s) by (destruct b; cbn [negb] in *; lia). nia. }
  set (tc1 := if b then r' <=? mm * 10 else r' <? mm * 10) in *. set (tc2 := if b then s <=? r' + mp * 10 else s <? r' + mp * 10) in *. set (half := if b then r' + r' <=? s else r' + r' <? s) in *.
  assert (T1 : if tc1 then le_if b r' (mm * 10) else le_if (negb b) (mm * 10) r'). { unfold tc1, le_if. destruct b; cbn [negb]; [destruct (Z.leb_spec r' (mm * 10))|destruct (Z.ltb_spec r' (mm * 10))]; auto. }
  assert (T2 : if tc2 then le_if b s (r' + mp * 10) else le_if (negb b) (r' + mp * 10) s). { unfold tc2, le_if. destruct b; cbn [negb]; [destruct (Z.leb_spec s (r' + mp * 10))|destruct (Z.ltb_spec s (r' + mp * 10))]; auto. }
  assert (In1 : forall P, inside b r s mm mp P 1 <-> le_if b (r' - mm * 10) ((P - q) * s) /\ le_if b ((P - q) * s) (r' + mp * 10)).
  { intros P. pose proof (inside_step b r s mm mp q r' (P - q) 0 ltac:(lia) E') as H. rewrite Z.pow_0_r, Z.mul_1_r in H. replace (q + (P - q)) with P in H by ring. change (0 + 1) with 1 in H. rewrite H. unfold inside. rewrite Z.pow_0_r, !Z.mul_1_r. reflexivity. }
  assert (Up : tc2 = true -> q + 1 <= 9 /\ (9 <? q + 1) = false).
  { intros T. rewrite T in T2. assert (q <> 9). { intros Eq. destruct Ho as (O1 & O2). unfold le_if in *. destruct b; cbn [negb] in *; lia. } split; [lia|]. apply Z.ltb_ge. lia. }
  assert (First0 : le_if b s ((r + mp) * 10) -> q = 0 -> tc1 = false /\ tc2 = true).
  { intros Hfi Eq. destruct Ho as (O1 & O2). unfold le_if in *. destruct tc1, tc2; destruct b; cbn [negb] in *; split; try reflexivity; exfalso; lia. }
  assert (UpOk : tc2 = true -> (tc1 = true -> le_if (negb b) s (r' + r')) -> run_ok b r s mm mp [q + 1]).
  { intros T Hn. destruct (Up T) as (U1 & _). rewrite T in T2. apply run_single; auto; [unfold digit; lia| | |lia].
    - apply In1. replace (q + 1 - q) with 1 by ring. unfold le_if in *. destruct b; cbn [negb] in *; split; lia.
    - intros P' I. apply In1 in I as (I1 & I2). rewrite E'. replace ((q + 1) * s - (q * s + r')) with (s - r') by ring. replace (P' * s - (q * s + r')) with ((P' - q) * s - r') by ring. rewrite (Z.abs_eq (s - r')) by lia. set (x := P' - q) in *.
      destruct (Z.le_gt_cases 1 x) as [L|L]; [assert (s <= x * s) by nia; lia|]. assert (x <= 0) by lia. assert (x * s <= 0) by nia. destruct tc1.
      + specialize (Hn eq_refl). unfold le_if in *. destruct b; cbn [negb] in *; lia.
      + exfalso. unfold le_if in *. destruct b; cbn [negb] in *; lia. }
  assert (DownOk : tc1 = true -> (tc2 = true -> le_if b (r' + r') s) -> run_ok b r s mm mp [q]).
  { intros T Hn. rewrite T in T1. apply run_single; auto; [unfold digit; lia| | |].
    - apply In1. replace (q - q) with 0 by ring. unfold le_if in *. destruct b; cbn [negb] in *; split; lia.
    - intros P' I. apply In1 in I as (I1 & I2). rewrite E'. replace (q * s - (q * s + r')) with (- r') by ring. replace (P' * s - (q * s + r')) with ((P' - q) * s - r') by ring. rewrite Z.abs_opp, (Z.abs_eq r') by lia. set (x := P' - q) in *.
      destruct (Z.le_gt_cases x 0) as [L|L]; [assert (x * s <= 0) by nia; lia|]. assert (1 <= x) by lia. assert (s <= x * s) by nia. destruct tc2.
      + specialize (Hn eq_refl). unfold le_if in *. destruct b; cbn [negb] in *; lia.
      + exfalso. unfold le_if in *. destruct b; cbn [negb] in *; lia.
    - intros Hfi. destruct (Z.eq_dec q 0) as [Eq|]; [|lia]. destruct (First0 Hfi Eq) as (X & _). congruence. }
  destruct tc1 eqn:Et1; cbn [negb] in Unf.
  - destruct tc2 eqn:Et2; cbn [negb] in Unf.
    + destruct half eqn:Eh.
      * exists [q]. split; [intros; rewrite Unf; cbn [dots]; change (len [q]) with 1; do 2 f_equal; lia|]. apply DownOk; auto. intros _. unfold le_if, half in *. destruct b; [now apply Z.leb_le|now apply Z.ltb_lt].
      * destruct (Up eq_refl) as (_ & Eu). rewrite Eu in Unf. exists [q + 1]. split; [intros; rewrite Unf; cbn [dots]; change (len [q + 1]) with 1; do 2 f_equal; lia|]. apply UpOk; auto. intros _. unfold le_if, half in *. destruct b; cbn [negb]; [now apply Z.leb_gt|now apply Z.ltb_ge].
    + exists [q]. split; [intros; rewrite Unf; cbn [dots]; change (len [q]) with 1; do 2 f_equal; lia|]. apply DownOk; auto. discriminate.
  - destruct tc2 eqn:Et2; cbn [negb] in Unf.
    + destruct (Up eq_refl) as (_ & Eu). rewrite Eu in Unf. exists [q + 1]. split; [intros; rewrite Unf; cbn [dots]; change (len [q + 1]) with 1; do 2 f_equal; lia|]. apply UpOk; auto. discriminate.
    + assert (Hr2 : 0 < r') by (unfold le_if in *; destruct b; cbn [negb] in *; lia).
      destruct (IH r' (mm * 10)) as (ds & Ep & R); auto; [lia| | |].
      { rewrite mplus10. fold mp. now split. } { rewrite Nat2Z.inj_succ, Z.pow_succ_r in Hf by lia. pose proof (pow2_pos (Z.of_nat fuel) ltac:(lia)). nia. }
      rewrite mplus10 in R. fold mp in R. destruct R as (R1 & R2 & R3 & R4 & R5 & R6 & _). destruct ds as [|d0 ds0]; [contradiction|]. remember (d0 :: ds0) as ds.
      exists (q :: ds). split. { intros point digs. rewrite Unf, Ep. cbn [bind fst snd]. f_equal. rewrite len_cons. f_equal; [|lia]. subst ds. reflexivity. }
      unfold run_ok. rewrite dval_cons, len_cons. pose proof (len_nonneg ds) as Ln. set (n := len ds) in *. assert (Hn1 : 1 <= n) by (subst ds; unfold n; rewrite len_cons; pose proof (len_nonneg ds0); lia).
      split; [discriminate|]. split; [constructor; [unfold digit; lia|auto]|]. split; [now apply (inside_step b r s mm mp q r')|]. split; [|split; [|split]].
      * intros P' I. replace P' with (q * 10 ^ n + (P' - q * 10 ^ n)) in I |- * by ring. apply (inside_step b r s mm mp q r') in I; auto. specialize (R4 _ I). rewrite Z.pow_add_r, Z.pow_1_r by lia. replace (r * (10 ^ n * 10)) with (r * 10 * 10 ^ n) by ring. rewrite E'.
        replace ((q * 10 ^ n + dval ds 0) * s - (q * s + r') * 10 ^ n) with (dval ds 0 * s - r' * 10 ^ n) by ring. replace ((q * 10 ^ n + (P' - q * 10 ^ n)) * s - (q * s + r') * 10 ^ n) with ((P' - q * 10 ^ n) * s - r' * 10 ^ n) by ring. exact R4.
      * intros j P' Hj I. destruct (Z.eq_dec j 0) as [->|Nj].
        { unfold inside in I. rewrite Z.pow_0_r, !Z.mul_1_r in I. destruct Ho as (O1 & O2). destruct I as (I1 & I2). unfold le_if in *. destruct b; cbn [negb] in *; (assert (1 <= P') by nia; assert (P' < 1) by nia; lia). }
        { replace j with (j - 1 + 1) in I by ring. replace P' with (q * 10 ^ (j - 1) + (P' - q * 10 ^ (j - 1))) in I by ring. apply (inside_step b r s mm mp q r') in I; [|lia|auto]. eapply (R5 (j - 1)); [lia|exact I]. }
      * intros Hfi. destruct (Z.eq_dec q 0) as [Eq|]; [destruct (First0 Hfi Eq); congruence|]. replace (n + 1 - 1) with n by ring. pose proof (dval_range ds R2). pose proof (pow10_pos n Ln). nia.
      * intros Hfi _. destruct (Z.eq_dec q 0) as [Eq|]; [destruct (First0 Hfi Eq); congruence|]. assert (s <= q * s) by nia. unfold le_if in *. destruct b; cbn [negb] in *; lia.
Qed.
