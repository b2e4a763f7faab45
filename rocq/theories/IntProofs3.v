(** gcd and lcm. *)
From Coq Require Import List Bool ZArith Lia Znumtheory.
From Verif Require Import Outcome BignumModel IntSpec IntModel BignumProofs BignumProofs2 BignumProofs5 BignumProofs6 IntProofs IntProofs2.
Import ListNotations.
Local Open Scope Z_scope.
Ltac Zify.zify_post_hook ::= idtac.

Lemma gcd_step : forall x y, y <> 0 -> Z.gcd y (x mod y) = Z.gcd x y.
Proof. intros. rewrite Z.gcd_comm, Z.gcd_mod by auto. apply Z.gcd_comm. Qed.
(** One of the next two remainders is below half of y. *)
Lemma gcd_fixfix_ok : forall k fuel x y, 0 <= x -> 0 <= y < 2 ^ Z.of_nat k -> (2 * k + 1 <= fuel)%nat -> gcd_fixfix fuel x y = Ok (Z.gcd x y).
Proof.
  induction k; intros fuel x y Hx Hy Hf.
  - change (2 ^ Z.of_nat 0) with 1 in Hy. assert (y = 0) by lia. subst. destruct fuel; [lia|]. cbn [gcd_fixfix]. change (0 <? 0) with false. cbn match. rewrite Z.gcd_0_r, Z.abs_eq by auto. reflexivity.
  - rewrite Nat2Z.inj_succ, Z.pow_succ_r in Hy by lia. destruct fuel as [|[|fuel]]; [lia|lia|]. cbn [gcd_fixfix].
    destruct (Z.ltb_spec 0 y) as [P|P]. 2: { assert (y = 0) by lia. subst. rewrite Z.gcd_0_r, Z.abs_eq by auto. reflexivity. }
    pose proof (Z.mod_pos_bound x y P) as B. destruct (Z.ltb_spec (x mod y) (2 ^ Z.of_nat k)) as [L|L].
    + change (gcd_fixfix (S fuel) y (x mod y) = Ok (Z.gcd x y)). rewrite IHk by lia. rewrite gcd_step by lia. reflexivity.
    + destruct (Z.ltb_spec 0 (x mod y)) as [P2|P2]. 2: { exfalso. assert (0 < 2 ^ Z.of_nat k) by (apply Z.pow_pos_nonneg; lia). lia. }
      set (r := x mod y) in *. pose proof (Z.mod_pos_bound y r P2) as B2.
      assert (y mod r <= y - r). { pose proof (Z.div_mod y r ltac:(lia)). assert (1 <= y / r) by (apply Z.div_le_lower_bound; lia). assert (r * 1 <= r * (y / r)) by (apply Z.mul_le_mono_nonneg_l; lia). lia. }
      rewrite IHk by lia. rewrite gcd_step by lia. unfold r. rewrite gcd_step by lia. reflexivity.
Qed.
Lemma gcd_fixfix_word : forall x y, 0 <= x -> word y -> gcd_fixfix GCD_FUEL x y = Ok (Z.gcd x y).
Proof. intros x y Hx Hy. apply gcd_fixfix_ok with 64%nat; auto. unfold GCD_FUEL; lia. Qed.

Lemma gcd_loop_ok : forall k fuel x y, canonical x -> canonical y -> 0 <= int_of x -> 0 <= int_of y < 2 ^ Z.of_nat k -> nwords x < MAX_DIGITS -> nwords y < MAX_DIGITS ->
  (2 * k + 1 <= fuel)%nat -> returns (gcd_loop fuel x y) (Z.gcd (int_of x) (int_of y)).
Proof.
  assert (Z0 : forall y X (F : res num), canonical y -> (match y with Fix 0 => Ok X | _ => F end) = if int_of y =? 0 then Ok X else F).
  { intros [[|p|p]|b] X F C; try reflexivity. destruct (big_val b C) as (A & _). change (int_of (Bn b)) with (bval b). rewrite (proj2 (Z.eqb_neq _ _)) by lia. reflexivity. }
  assert (St : forall x y, canonical x -> canonical y -> 0 <= int_of x -> 0 < int_of y -> nwords x < MAX_DIGITS -> nwords y < MAX_DIGITS ->
    exists r, num_modulo x y true = Ok r /\ canonical r /\ int_of r = int_of x mod int_of y /\ nwords r < MAX_DIGITS).
  { intros x y Cx Cy Px Py Lx Ly. destruct (num_modulo_ok x y true Cx Cy Lx Ly ltac:(lia) ltac:(lia)) as (r & E & Cr & Vr). exists r. rewrite Z.rem_mod_nonneg in Vr by lia. split; auto. split; auto. split; auto.
    pose proof (nwords_mono r y Cr Cy). pose proof (Z.mod_pos_bound (int_of x) (int_of y) Py). lia. }
  induction k; intros fuel x y Cx Cy Hx Hy Lx Ly Hf.
  - change (2 ^ Z.of_nat 0) with 1 in Hy. destruct fuel; [lia|]. cbn [gcd_loop]. rewrite Z0 by auto. assert (E : int_of y = 0) by lia. rewrite E. cbn [Z.eqb]. apply ret_ok; auto. rewrite Z.gcd_0_r, Z.abs_eq by auto. reflexivity.
  - rewrite Nat2Z.inj_succ, Z.pow_succ_r in Hy by lia. destruct fuel as [|fuel]; [lia|]. cbn [gcd_loop]. rewrite Z0 by auto.
    destruct (Z.eqb_spec (int_of y) 0) as [E|N]. { rewrite E. apply ret_ok; auto. rewrite Z.gcd_0_r, Z.abs_eq by auto. reflexivity. }
    destruct (St x y) as (r & -> & Cr & Vr & Lr); auto; [lia|]. cbn [bind].
    pose proof (Z.mod_pos_bound (int_of x) (int_of y) ltac:(lia)) as B. rewrite <- (gcd_step (int_of x) (int_of y)) by auto. rewrite <- Vr in *.
    destruct (Z.ltb_spec (int_of r) (2 ^ Z.of_nat k)) as [L|L]. { apply IHk; auto; lia. }
    destruct fuel as [|fuel]; [lia|]. cbn [gcd_loop]. rewrite Z0 by auto. assert (0 < 2 ^ Z.of_nat k) by (apply Z.pow_pos_nonneg; lia). rewrite (proj2 (Z.eqb_neq _ _)) by lia.
    destruct (St y r) as (s & -> & Cs & Vs & Ls); auto; [lia|lia|]. cbn [bind]. pose proof (Z.mod_pos_bound (int_of y) (int_of r) ltac:(lia)) as B2.
    assert (int_of y mod int_of r <= int_of y - int_of r).
    { set (yy := int_of y) in *. set (rr := int_of r) in *. pose proof (Z.div_mod yy rr ltac:(lia)). assert (1 <= yy / rr) by (apply Z.div_le_lower_bound; lia). assert (rr * 1 <= rr * (yy / rr)) by (apply Z.mul_le_mono_nonneg_l; lia). lia. }
    rewrite <- (gcd_step (int_of y) (int_of r)) by lia. rewrite <- Vs in *. apply IHk; auto; lia.
Qed.

Lemma get_integer_ok : forall x, canonical x -> exists v o, get_integer x = Ok (v, o) /\
  (o = false -> v = int_of x /\ LONG_MIN <= v <= LONG_MAX) /\ (o = true -> (int_of x < LONG_MIN \/ LONG_MAX < int_of x) /\ exists b, x = Bn b).
Proof.
  intros [v|b] H. { apply can_fix in H. exists v, false. split; auto. split; [|discriminate]. intros _. unfold LONG_MIN, LONG_MAX. cbn [int_of]. lia. }
  destruct (big_val b H) as (A & _ & S & V & V2). destruct (canonical_wfb b H) as ((_ & F & N) & L & _). cbn [get_integer int_of]. fold (bval b). unfold LONG_MIN, LONG_MAX.
  assert (Hl : (0 < length (words b))%nat) by (destruct (words b); [contradiction|cbn; lia]). rewrite rd_ok by auto. cbn [bind].
  assert (K : (length (words b) = 1%nat /\ nth 0 (words b) 0 = value (words b)) \/ ((2 <= length (words b))%nat /\ W <= value (words b))).
  { destruct (words b) as [|w [|w2 t]] eqn:E; [contradiction|left; cbn [length nth value]; split; [auto|lia]|right]. split; [cbn [length]; lia|].
    pose proof (nonzero_top_big _ F N L) as T. eapply Z.le_trans; [|exact T]. rewrite <- (Z.pow_1_r W) at 1. apply Z.pow_le_mono_r; [reflexivity|]. cbn [length]. lia. }
  pose proof W_big. destruct S as [S|S]; rewrite S in *.
  - change (0 <=? 1) with true. cbn match. destruct K as [(E & ->)|(E & G)].
    + rewrite E. cbn [Nat.leb]. rewrite orb_false_r. destruct (Z.ltb_spec 9223372036854775807 (value (words b))).
      * exists 0, true. split; auto. split; [discriminate|]. intros _. split; eauto. lia.
      * exists (value (words b)), false. split; auto. split; [|discriminate]. intros _. lia.
    + rewrite (proj2 (Nat.leb_le 2 _)) by auto. rewrite orb_true_r. exists 0, true. split; auto. split; [discriminate|]. intros _. split; eauto. lia.
  - change (0 <=? -1) with false. cbn match. destruct K as [(E & ->)|(E & G)].
    + rewrite E. cbn [Nat.leb]. rewrite orb_false_r. destruct (Z.ltb_spec (9223372036854775807 + 1) (value (words b))).
      * exists 0, true. split; auto. split; [discriminate|]. intros _. split; eauto. lia.
      * exists (- value (words b)), false. split; auto. split; [|discriminate]. intros _. lia.
    + rewrite (proj2 (Nat.leb_le 2 _)) by auto. rewrite orb_true_r. exists 0, true. split; auto. split; [discriminate|]. intros _. split; eauto. lia.
Qed.
Lemma u_abs_ok : forall i, LONG_MIN <= i <= LONG_MAX -> u_abs i = Z.abs i /\ word (u_abs i).
Proof. intros i H. unfold LONG_MIN, LONG_MAX in H. unfold u_abs. split; [|apply uwrap_word]. pose proof W_big. destruct (Z.ltb_spec i 0); rewrite uwrap_small; lia. Qed.
Lemma gcd_rem : forall x y, y <> 0 -> Z.gcd y (Z.abs (Z.rem x y)) = Z.gcd x y.
Proof.
  intros x y N. rewrite Z.gcd_abs_r. pose proof (Z.quot_rem x y N) as E. rewrite (Z.gcd_comm x). rewrite E at 2. rewrite Z.add_comm, (Z.mul_comm y). rewrite Z.gcd_add_mult_diag_r. reflexivity.
Qed.
Lemma gcd_bound : forall x y, word y -> y <> 0 -> word (Z.gcd x y).
Proof. intros x y Hy N. unfold word in *. pose proof (Z.gcd_nonneg x y). pose proof (Z.gcd_divide_r x y) as D. apply Z.divide_pos_le in D; lia. Qed.
Lemma gcd_bigfix_ok : forall b i, canonical (Bn b) -> nw b < MAX_DIGITS -> i <> 0 -> LONG_MIN < i <= LONG_MAX -> gcd_bigfix b (u_abs i) = Ok (Z.gcd (bval b) i).
Proof.
  intros b i C L N B. unfold gcd_bigfix. destruct (u_abs_ok i ltac:(lia)) as [E Wd]. rewrite E in *. unfold LONG_MIN, LONG_MAX in B.
  assert (S : slong (Z.abs i) = Z.abs i) by (unfold slong; rewrite Z.mod_small by (assert (W = 2 * 9223372036854775808) by reflexivity; lia); lia). rewrite S.
  destruct (divsi_ok b (Z.abs i) (canonical_wfb' _ C) L ltac:(lia) ltac:(lia)) as (q & -> & _). cbn [bind snd]. pose proof (Z.rem_bound_abs (bval b) (Z.abs i) ltac:(lia)) as Rb. set (r := Z.rem (bval b) (Z.abs i)) in *.
  assert (E2 : (if r <? 0 then sl (- r) else Ok r) = Ok (Z.abs r)). { destruct (Z.ltb_spec r 0); [rewrite sl_ok by (unfold LONG_MIN, LONG_MAX; lia)|]; f_equal; lia. }
  rewrite E2. cbn [bind]. rewrite gcd_fixfix_word by (unfold word; pose proof W_big; lia). f_equal. unfold r. rewrite gcd_rem by lia. apply Z.gcd_abs_r.
Qed.
Lemma num_gcd_ok : forall x y, canonical x -> canonical y -> nwords x < MAX_DIGITS -> nwords y < MAX_DIGITS -> (int_of x = 0 -> 0 <= int_of y) -> (int_of y = 0 -> 0 <= int_of x) ->
  returns (num_gcd x y) (Z.gcd (int_of x) (int_of y)).
Proof.
  intros x y Cx Cy Lx Ly Hx Hy. destruct (Z.eq_dec (int_of x) 0) as [X0|X0].
  { assert (x = Fix 0). { destruct x; [cbn in X0; now subst|]. destruct (big_val b Cx) as (A & _). change (bval b = 0) in X0. lia. } subst. cbn [num_gcd]. apply ret_ok; auto. cbn [int_of]. rewrite Z.gcd_0_l. specialize (Hx eq_refl). lia. }
  destruct (Z.eq_dec (int_of y) 0) as [Y0|Y0].
  { assert (y = Fix 0). { destruct y; [cbn in Y0; now subst|]. destruct (big_val b Cy) as (A & _). change (bval b = 0) in Y0. lia. } subst. specialize (Hy eq_refl).
    replace (num_gcd x (Fix 0)) with (Ok x). { apply ret_ok; auto. cbn [int_of]. rewrite Z.gcd_0_r. lia. } destruct x as [[|p|p]|]; auto. }
  replace (num_gcd x y) with (
    do p <- get_integer x;
    do q <- get_integer y;
    let '(ix, ox) := p in let '(iy, oy) := q in
    if negb ox && negb oy then
      let ux := u_abs ix in let uy := u_abs iy in
      do ur <- (if uy <=? ux then gcd_fixfix GCD_FUEL ux uy else gcd_fixfix GCD_FUEL uy ux);
      Ok (make_integer_u ur)
    else if negb oy && negb (iy =? LONG_MIN) then
      match x with Bn b => do ur <- gcd_bigfix b (u_abs iy); Ok (make_integer_u ur) | Fix _ => Panic end
    else if negb ox && negb (ix =? LONG_MIN) then
      match y with Bn b => do ur <- gcd_bigfix b (u_abs ix); Ok (make_integer_u ur) | Fix _ => Panic end
    else
      let x1 := num_abs x in let y1 := num_abs y in
      do c <- num_cmp x1 y1;
      let '(x2, y2) := if c <? 0 then (y1, x1) else (x1, y1) in
      gcd_loop (128 * num_size y2 + 140) x2 y2).
  2: { unfold num_gcd. destruct x as [[|p|p]|]; try (exfalso; apply X0; reflexivity); destruct y as [[|q|q]|]; try (exfalso; apply Y0; reflexivity); reflexivity. }
  destruct (get_integer_ok x Cx) as (ix & ox & -> & A1 & A2). destruct (get_integer_ok y Cy) as (iy & oy & -> & B1 & B2). cbn [bind].
  assert (Fin : forall u, word u -> u = Z.gcd (int_of x) (int_of y) -> returns (Ok (make_integer_u u)) (Z.gcd (int_of x) (int_of y))).
  { intros u Wu E. destruct (make_integer_u_ok u Wu). apply ret_ok; congruence. }
  assert (Big : (ox = true \/ ix = LONG_MIN) -> (oy = true \/ iy = LONG_MIN) -> returns (let x1 := num_abs x in let y1 := num_abs y in
      do c <- num_cmp x1 y1;
      let '(x2, y2) := if c <? 0 then (y1, x1) else (x1, y1) in
      gcd_loop (128 * num_size y2 + 140) x2 y2) (Z.gcd (int_of x) (int_of y))).
  { intros _ _. cbv zeta. destruct (num_abs_ok x Cx) as (C1 & V1 & N1). destruct (num_abs_ok y Cy) as (C2 & V2 & N2). rewrite num_cmp_ok by auto. cbn [bind].
    assert (Sz : forall z, Z.of_nat (num_size z) = nwords z) by (intros []; reflexivity).
    assert (G : forall a b, canonical a -> canonical b -> 0 <= int_of a -> 0 <= int_of b -> nwords a < MAX_DIGITS -> nwords b < MAX_DIGITS -> returns (gcd_loop (128 * num_size b + 140) a b) (Z.gcd (int_of a) (int_of b))).
    { intros a b Ca Cb Ha Hb La Lb. apply gcd_loop_ok with (64 * num_size b)%nat; auto; [|lia]. split; auto. pose proof (nwords_upper b Cb) as U. rewrite Z.abs_eq in U by auto. rewrite <- Sz in U. rewrite Nat2Z.inj_mul, Z.pow_mul_r by lia. exact U. }
    rewrite <- (Z.gcd_abs_l (int_of x)), <- (Z.gcd_abs_r (Z.abs (int_of x))), <- V1, <- V2.
    destruct (cmpz (int_of (num_abs x)) (int_of (num_abs y)) <? 0); [rewrite Z.gcd_comm|]; apply G; auto; lia. }
  destruct ox, oy; cbn [negb andb].
  - apply Big; auto.
  - destruct (B1 eq_refl) as (-> & By). destruct (A2 eq_refl) as (Ax & bx & ->). destruct (Z.eqb_spec (int_of y) LONG_MIN); cbn [negb]; [apply Big; auto|].
    rewrite gcd_bigfix_ok; auto; [|lia]. cbn [bind]. apply Fin; auto. rewrite <- Z.gcd_abs_r. apply gcd_bound; [|lia]. unfold word, LONG_MIN, LONG_MAX in *. pose proof W_big. lia.
  - destruct (A1 eq_refl) as (-> & Ax). destruct (B2 eq_refl) as (By & b_ & ->). destruct (Z.eqb_spec (int_of x) LONG_MIN); cbn [negb]; [apply Big; auto|].
    rewrite gcd_bigfix_ok; auto; [|lia]. cbn [bind]. apply Fin; [|apply Z.gcd_comm]. rewrite <- Z.gcd_abs_r. apply gcd_bound; [|lia]. unfold word, LONG_MIN, LONG_MAX in *. pose proof W_big. lia.
  - destruct (A1 eq_refl) as (-> & Ax). destruct (B1 eq_refl) as (-> & By). cbv zeta. destruct (u_abs_ok _ Ax) as [Ea Wa]. destruct (u_abs_ok _ By) as [Eb Wb].
    assert (E : (if u_abs (int_of y) <=? u_abs (int_of x) then gcd_fixfix GCD_FUEL (u_abs (int_of x)) (u_abs (int_of y)) else gcd_fixfix GCD_FUEL (u_abs (int_of y)) (u_abs (int_of x))) = Ok (Z.gcd (int_of x) (int_of y))).
    { destruct (u_abs (int_of y) <=? u_abs (int_of x)); rewrite gcd_fixfix_word by (auto; rewrite ?Ea, ?Eb; lia); rewrite Ea, Eb, Z.gcd_abs_l, Z.gcd_abs_r; f_equal. apply Z.gcd_comm. }
    rewrite E. cbn [bind]. apply Fin; auto. rewrite <- Z.gcd_abs_r. rewrite <- Eb. apply gcd_bound; auto. rewrite Eb. lia.
Qed.

(** gcd and lcm of a list *)
Lemma gcd_recn_ok : forall args a, canonical a -> 0 <= int_of a -> nwords a < MAX_DIGITS -> Forall (fun x => canonical x /\ 0 <= int_of x /\ nwords x < MAX_DIGITS) args ->
  returns (gcd_recn a args) (fold_left Z.gcd (map int_of args) (int_of a)).
Proof.
  induction args as [|b t IH]; intros a C P L F; cbn [gcd_recn map fold_left]. { now apply ret_ok. }
  inversion F as [|? ? (Cb & Pb & Lb) F']; subst. destruct (num_gcd_ok a b C Cb L Lb ltac:(auto) ltac:(auto)) as (g & -> & Cg & Vg). cbn [bind]. rewrite <- Vg. apply IH; auto.
  - rewrite Vg. apply Z.gcd_nonneg.
  - destruct (Z.eq_dec (int_of b) 0) as [E|N].
    + rewrite E, Z.gcd_0_r, Z.abs_eq in Vg by auto. pose proof (nwords_mono g a Cg C). lia.
    + pose proof (nwords_mono g b Cg Cb) as M. pose proof (Z.gcd_divide_r (int_of a) (int_of b)) as D. apply Z.divide_pos_le in D; [|lia]. pose proof (Z.gcd_nonneg (int_of a) (int_of b)). lia.
Qed.
Lemma fold_gcd_abs : forall l a, fold_left Z.gcd (map Z.abs l) (Z.abs a) = fold_left Z.gcd l (Z.abs a).
Proof. induction l; intros; cbn [map fold_left]; auto. rewrite Z.gcd_abs_r. rewrite <- (Z.abs_eq (Z.gcd (Z.abs a0) a)) by apply Z.gcd_nonneg. apply IHl. Qed.
Lemma fold_gcd_pull : forall l a, fold_left Z.gcd l (Z.abs a) = Z.gcd a (fold_right Z.gcd 0 l).
Proof.
  induction l; intros; cbn [fold_left fold_right]. { now rewrite Z.gcd_0_r. }
  rewrite Z.gcd_abs_l. rewrite <- (Z.abs_eq (Z.gcd a0 a)) by apply Z.gcd_nonneg. rewrite IHl. now rewrite Z.gcd_assoc.
Qed.
Lemma scheme_gcd_ok : forall args, Forall (fun x => canonical x /\ nwords x < MAX_DIGITS) args -> returns (scheme_gcd args) (fold_right Z.gcd 0 (map int_of args)).
Proof.
  intros [|a t] F; unfold scheme_gcd; cbn [map]. { now apply ret_mkint. }
  inversion F as [|? ? (C & L) F']; subst. destruct (num_abs_ok a C) as (C1 & V1 & N1).
  destruct (gcd_recn_ok (map num_abs t) (num_abs a)) as (g & E & Cg & Vg); auto; try lia.
  { apply Forall_map. eapply Forall_impl; [|exact F']. intros x (Cx & Lx). destruct (num_abs_ok x Cx) as (C2 & V2 & N2). split; auto. lia. }
  exists g. split; auto. split; auto. rewrite Vg, V1. cbn [fold_right]. rewrite <- fold_gcd_pull, <- (fold_gcd_abs (map int_of t)). rewrite !map_map. f_equal. apply map_ext_in. intros x Hx. rewrite Forall_forall in F'. apply (num_abs_ok x), F', Hx.
Qed.

Lemma lcm_quot : forall u v, 0 <= u -> 0 <= v -> u <> 0 -> Z.quot u (Z.gcd u v) * v = Z.lcm u v.
Proof.
  intros u v Hu Hv N. unfold Z.lcm. assert (0 < Z.gcd u v). { pose proof (Z.gcd_nonneg u v). assert (Z.gcd u v <> 0) by (intros E; apply Z.gcd_eq_0_l in E; auto). lia. }
  rewrite Z.quot_div_nonneg by lia. rewrite Z.abs_eq; auto.
  - rewrite (Z.mul_comm (u / _)). rewrite <- !Z.divide_div_mul_exact by (try lia; apply Z.gcd_divide_l || apply Z.gcd_divide_r). now rewrite Z.mul_comm.
  - apply Z.mul_nonneg_nonneg; auto. apply Z.div_pos; lia.
Qed.

Definition sum_words (l : list num) : Z := fold_right (fun x s => nwords x + s) 0 l.
Lemma sum_words_nonneg : forall l, Forall canonical l -> 0 <= sum_words l.
Proof. induction 1; cbn [sum_words fold_right]; [lia|]. pose proof (nwords_pos _ H). fold (sum_words l). lia. Qed.
Lemma lcm2_ok : forall u v, canonical u -> canonical v -> 0 <= int_of u -> 0 <= int_of v -> nwords u + nwords v < MAX_DIGITS ->
  exists r, lcm2 u v = Ok r /\ canonical r /\ int_of r = Z.lcm (int_of u) (int_of v) /\ nwords r <= nwords u + nwords v.
Proof.
  intros u v Cu Cv Pu Pv L. pose proof (nwords_pos u Cu). pose proof (nwords_pos v Cv). unfold lcm2.
  destruct (num_gcd_ok u v Cu Cv ltac:(lia) ltac:(lia) ltac:(auto) ltac:(auto)) as (g & -> & Cg & Vg). cbn [bind]. rewrite num_sign_ok by auto.
  destruct (Z.eq_dec (int_of u) 0) as [E|N].
  { rewrite E. cbn [Z.sgn Z.eqb]. exists (Fix 0). rewrite mkint_id by (unfold FIX_MIN, FIX_MAX; lia). split; auto. split; [apply can_fix; lia|]. cbn [int_of nwords]. rewrite Z.lcm_0_l. lia. }
  rewrite (proj2 (Z.eqb_neq (Z.sgn (int_of u)) 0)) by lia. assert (G : 0 < int_of g). { rewrite Vg. pose proof (Z.gcd_nonneg (int_of u) (int_of v)). assert (Z.gcd (int_of u) (int_of v) <> 0) by (intros E; apply Z.gcd_eq_0_l in E; auto). lia. }
  destruct (num_quotient_ok u g Cu Cg ltac:(lia) ltac:(lia)) as (q & r & -> & Cq & _ & Vq & _). { unfold quot_exception. lia. } cbn [bind fst].
  assert (Qb : 0 <= int_of q <= int_of u). { rewrite Vq. rewrite Z.quot_div_nonneg by lia. split; [apply Z.div_pos; lia|]. apply Z.div_le_upper_bound; [lia|]. assert (1 * int_of u <= int_of g * int_of u) by (apply Z.mul_le_mono_nonneg_r; lia). lia. }
  assert (Lq : nwords q <= nwords u) by (apply nwords_mono; auto; lia).
  destruct (num_mul_ok q v Cq Cv ltac:(lia)) as (m & -> & Cm & Vm). exists m. split; auto. split; auto. split. { rewrite Vm, Vq, Vg. now apply lcm_quot. }
  apply nwords_le; auto; [lia|]. rewrite Vm, Z.abs_mul. pose proof (nwords_upper u Cu). pose proof (nwords_upper v Cv). rewrite Z.pow_add_r by lia. apply Z.mul_lt_mono_nonneg; lia.
Qed.
Lemma lcm_recn_ok : forall args a, canonical a -> 0 <= int_of a -> Forall (fun x => canonical x /\ 0 <= int_of x) args -> nwords a + sum_words args < MAX_DIGITS ->
  returns (lcm_recn a args) (fold_left Z.lcm (map int_of args) (int_of a)).
Proof.
  induction args as [|b t IH]; intros a C P F L; cbn [lcm_recn map fold_left]. { now apply ret_ok. }
  inversion F as [|? ? (Cb & Pb) F']; subst. cbn [sum_words fold_right] in L. fold (sum_words t) in L. pose proof (sum_words_nonneg t ltac:(eapply Forall_impl; [|exact F']; cbn beta; intros ? []; assumption)).
  destruct (lcm2_ok a b C Cb P Pb ltac:(lia)) as (r & -> & Cr & Vr & Lr). cbn [bind]. rewrite <- Vr. apply IH; auto; [|lia]. rewrite Vr. apply Z.lcm_nonneg.
Qed.
Lemma fold_lcm_pull : forall l a, fold_left Z.lcm (map Z.abs l) (Z.abs a) = Z.lcm a (fold_right Z.lcm 1 l).
Proof.
  induction l; intros; cbn [fold_left fold_right map]. { now rewrite Z.lcm_1_r. }
  rewrite Z.lcm_abs_l, Z.lcm_abs_r. rewrite <- (Z.abs_eq (Z.lcm a0 a)) by apply Z.lcm_nonneg. rewrite IHl. now rewrite Z.lcm_assoc.
Qed.
Lemma scheme_lcm_ok : forall args, Forall canonical args -> sum_words args < MAX_DIGITS -> returns (scheme_lcm args) (fold_right Z.lcm 1 (map int_of args)).
Proof.
  intros [|a t] F L; unfold scheme_lcm; cbn [map]. { now apply ret_mkint. }
  inversion F as [|? ? C F']; subst. destruct (num_abs_ok a C) as (C1 & V1 & N1). cbn [sum_words fold_right] in L. fold (sum_words t) in L.
  assert (Es : sum_words (map num_abs t) = sum_words t). { clear - F'. induction F'; cbn [map sum_words fold_right]; auto. fold (sum_words l) (sum_words (map num_abs l)). destruct (num_abs_ok x H) as (_ & _ & ->). lia. }
  destruct (lcm_recn_ok (map num_abs t) (num_abs a)) as (g & E & Cg & Vg); auto; try lia.
  { apply Forall_map. eapply Forall_impl; [|exact F']. intros x Cx. destruct (num_abs_ok x Cx) as (C2 & V2 & N2). split; auto. lia. }
  exists g. split; auto. split; auto. rewrite Vg, V1. cbn [fold_right]. rewrite <- fold_lcm_pull. rewrite !map_map. f_equal. apply map_ext_in. intros x Hx. rewrite Forall_forall in F'. apply (num_abs_ok x), F', Hx.
Qed.
