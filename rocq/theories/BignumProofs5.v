(** Division of a bignum by a bignum, by a fixnum, and the remainder by a fixnum. *)
From Coq Require Import List Bool ZArith Lia.
From Verif Require Import Outcome BignumModel IntSpec BignumProofs BignumProofs2 BignumProofs4.
Import ListNotations.
Local Open Scope Z_scope.
Ltac Zify.zify_post_hook ::= idtac.

Lemma value_last : forall ws, Forall word ws -> ws <> [] -> exists L, 0 <= L < W ^ Z.of_nat (length ws - 1) /\ value ws = L + W ^ Z.of_nat (length ws - 1) * last ws 0.
Proof.
  intros ws F N. pose proof (app_removelast_last 0 N) as E. exists (value (removelast ws)).
  assert (Ln : length (removelast ws) = (length ws - 1)%nat) by (rewrite E at 2; rewrite app_length; cbn; lia).
  split. { rewrite <- Ln. apply value_bound. rewrite E in F. apply Forall_app in F. tauto. }
  rewrite E at 1. rewrite value_snoc, Ln. reflexivity.
Qed.
Lemma gdiv_ok : forall xs ys lq, Forall word xs -> Forall word ys -> ys <> [] -> last ys 0 <> 0 -> HW <= value ys -> (length ys <= length xs)%nat ->
  Z.of_nat (length xs) < MAX_DIGITS -> (length xs - length ys + 1 <= lq)%nat ->
  exists q r, gdiv xs ys (repeat 0 lq) = Ok (q, r) /\ Forall word q /\ Forall word r /\ length q = lq /\ length r = S (length xs)
  /\ value q = value xs / value ys /\ value r = value xs mod value ys.
Proof.
  intros xs ys lq Fx Fy Ny Ht Hy Ll Lm Lq. unfold gdiv.
  assert (Ly : (0 < length ys)%nat) by (destruct ys; [contradiction|cbn; lia]).
  rewrite rd_ok by lia. cbn [bind]. rewrite <- last_nth by auto. set (t := last ys 0) in *.
  assert (Wt : word t) by (unfold t; rewrite last_nth by auto; now apply word_nth).
  destruct (div_normalization_factor_ok t Wt Ht) as (d0 & -> & D0 & Hd0). cbn [bind].
  rewrite make_bignum_ok by lia. cbn [bind]. set (lx := length xs) in *. set (ly := length ys) in *.
  destruct (value_last ys Fy Ny) as (L & HL & EY). fold t ly in EY, HL. set (Y := value ys) in *. set (X := value xs) in *. set (B := W ^ Z.of_nat (ly - 1)) in *.
  assert (HB : 0 < B) by apply Wpow_pos. unfold word in Wt.
  assert (S1 : exists d n k, (if 32 <=? d0 then (d0 - 32, (2 * ly - 1)%nat) else (d0, (2 * ly)%nat)) = (d, n) /\ n = (2 * (ly - 1) + k)%nat /\ 0 <= d <= 31
      /\ (2 <= n <= 2 * ly)%nat /\ (2 * ly - 1 <= n)%nat /\ P k <= 2 * (t * 2 ^ d) /\ (t + 1) * 2 ^ d <= P k).
  { assert (P2 : 0 < 2 ^ d0) by (apply Z.pow_pos_nonneg; lia).
    assert (T64 : (t + 1) * 2 ^ d0 <= W). { rewrite <- (pow2_split d0) in Hd0 |- * by lia. rewrite Z.mul_comm in Hd0. assert (t < 2 ^ (64 - d0)) by (apply Z.mul_lt_mono_pos_l with (2 ^ d0); lia). rewrite Z.mul_comm. apply Z.mul_le_mono_nonneg_l; lia. }
    destruct (Z.leb_spec 32 d0).
    - exists (d0 - 32), (2 * ly - 1)%nat, 1%nat. assert (Ed : 2 ^ d0 = 2 ^ (d0 - 32) * HW) by (rewrite <- HW_pow, <- Z.pow_add_r by lia; f_equal; lia).
      rewrite Ed in *. split; auto. split; [lia|]. split; [lia|].
      assert (HH : HW * 2147483648 = 9223372036854775808) by reflexivity. pose proof HW_pos.
      split. { split; [|lia]. destruct (Nat.eq_dec ly 1) as [E1|]; [exfalso|lia]. unfold B in EY, HL. rewrite E1 in EY, HL. change (W ^ Z.of_nat (1 - 1)) with 1 in EY, HL.
        assert (HW <= t) by lia. set (e := 2 ^ (d0 - 32)) in *. assert (0 < e) by (apply Z.pow_pos_nonneg; lia). clear - H H1 H2 H0 Hd0. rewrite W_HW in Hd0. assert (HW * HW <= t * (e * HW)); [|lia]. replace (t * (e * HW)) with (t * e * HW) by ring. apply Z.mul_le_mono_nonneg_r; [lia|]. nia. }
      split; [lia|]. rewrite P_1. replace (t * (2 ^ (d0 - 32) * HW)) with (HW * (t * 2 ^ (d0 - 32))) in * by ring. replace ((t + 1) * (2 ^ (d0 - 32) * HW)) with (HW * ((t + 1) * 2 ^ (d0 - 32))) in T64 by ring.
      rewrite W_HW in T64. split. { assert (2147483648 <= t * 2 ^ (d0 - 32)) by (apply Z.mul_le_mono_pos_l with HW; lia). change HW with (2 * 2147483648). lia. }
      apply Z.mul_le_mono_pos_l with HW; lia.
    - exists d0, (2 * ly)%nat, 2%nat. rewrite P_2. assert (W = 2 * 9223372036854775808) by reflexivity. repeat split; try lia. }
  destruct S1 as (d & n & k & -> & En & Hd & Hn & Hn2 & K1 & K2). cbn [bind].
  assert (P2 : 0 < 2 ^ d) by (apply Z.pow_pos_nonneg; lia).
  destruct (lshift_ok (S lx) xs d Fx) as (u & -> & Lu & Fu & Vu). { destruct xs; [cbn in *; lia|discriminate]. } { lia. } { rewrite Z.div_small by lia. lia. } cbn [bind].
  destruct (lshift_ok ly ys d Fy Ny) as (v & -> & Lv & Fv & Vv). { lia. } { rewrite Z.div_small by lia. lia. } cbn [bind].
  fold X in Vu. fold Y in Vv.
  assert (PB : P (2 * (ly - 1)) = B) by (unfold B; rewrite P_W; reflexivity).
  assert (Pn : P n = P k * B) by (rewrite En, P_add, PB; ring).
  assert (Yd : Y * 2 ^ d < P n). { rewrite Pn. apply Z.lt_le_trans with ((t + 1) * 2 ^ d * B); [|apply Z.mul_le_mono_nonneg_r; [clear - HB; lia|exact K2]]. replace ((t + 1) * 2 ^ d * B) with ((t + 1) * B * 2 ^ d) by ring. apply Z.mul_lt_mono_pos_r; [exact P2|]. clear - EY HL. lia. }
  assert (Yd2 : P n <= 2 * (Y * 2 ^ d)). { rewrite Pn. apply Z.le_trans with (2 * (t * 2 ^ d) * B); [apply Z.mul_le_mono_nonneg_r; [clear - HB; lia|exact K1]|]. replace (2 * (t * 2 ^ d) * B) with (2 * (B * t * 2 ^ d)) by ring. apply Z.mul_le_mono_nonneg_l; [clear; lia|]. apply Z.mul_le_mono_nonneg_r; [clear - P2; lia|]. clear - EY HL; lia. }
  assert (HWp : 0 < HW) by reflexivity. assert (Y0 : 0 < Y) by (clear - Hy HWp; lia). assert (Yp : 0 < Y * 2 ^ d) by (apply Z.mul_pos_pos; assumption). clear K1 K2 EY Hd0 HL.
  assert (Vv2 : value v = Y * 2 ^ d). { rewrite Vv. apply Z.mod_small. split; [lia|]. rewrite P_W. apply Z.lt_le_trans with (P n); auto. replace (2 * ly)%nat with (n + (2 * ly - n))%nat by (clear - Hn; lia). rewrite P_add. pose proof (P_pos n) as A1. pose proof (P_pos (2 * ly - n)) as A2. clear - A1 A2. rewrite <- (Z.mul_1_r (P n)) at 1. apply Z.mul_le_mono_nonneg_l; lia. }
  pose proof (value_bound xs Fx) as BX. fold X lx in BX.
  assert (D31 : 2 ^ d <= 2147483648) by (change 2147483648 with (2 ^ 31); apply Z.pow_le_mono_r; lia).
  assert (Xd : X * 2 ^ d < W ^ Z.of_nat lx * 2147483648). { apply Z.lt_le_trans with (W ^ Z.of_nat lx * 2 ^ d); [apply Z.mul_lt_mono_pos_r; lia|]. apply Z.mul_le_mono_nonneg_l; lia. }
  assert (X0 : 0 <= X * 2 ^ d) by (apply Z.mul_nonneg_nonneg; lia).
  assert (Vu2 : value u = X * 2 ^ d). { rewrite Vu. apply Z.mod_small. split; [lia|]. rewrite Wpow_S. assert (2147483648 <= W) by (pose proof W_big; lia). set (E := W ^ Z.of_nat lx) in *. clearbody E. nia. }
  assert (N1 : (n - 1 < 2 * length v)%nat /\ (n - 2 < 2 * length v)%nat /\ (n <= 2 * length v)%nat /\ (S (2 * lx - n) + n <= 2 * length u)%nat /\ (S (2 * lx - n) <= 2 * lq)%nat) by (clear - Hn Hn2 Lv Lu Lq Ll; lia).
  destruct N1 as (N1 & N2 & N3 & N4 & N5). rewrite (digit_ok v (n - 1)), (digit_ok v (n - 2)) by assumption. cbn [bind].
  assert (UV : value u < value v * P (S (2 * lx - n))).
  { rewrite Vu2, Vv2. rewrite P_S. rewrite P_W in Xd. replace (2 * lx)%nat with (n + (2 * lx - n))%nat in Xd by (clear - Hn Ll; lia). rewrite P_add in Xd. pose proof (P_pos (2 * lx - n)) as Pp. set (M := P (2 * lx - n)) in *. clearbody M.
    change HW with (2 * 2147483648). replace (Y * 2 ^ d * (2 * 2147483648 * M)) with (2 * (Y * 2 ^ d) * (2147483648 * M)) by ring. apply Z.lt_le_trans with (P n * M * 2147483648); [exact Xd|].
    replace (P n * M * 2147483648) with (P n * (2147483648 * M)) by ring. apply Z.mul_le_mono_nonneg_r; [clear - Pp; lia|exact Yd2]. }
  assert (Z0 : value (repeat 0 lq) mod P (S (2 * lx - n)) = 0) by (rewrite value_repeat0; apply Z.mod_0_l; pose proof (P_pos (S (2 * lx - n))) as A; clear - A; lia).
  rewrite <- Vv2 in Yd, Yd2.
  destruct (gdiv_loop_ok (S (2 * lx - n)) u v (repeat 0 lq) n Fu Fv (Forall_repeat0 _) (proj1 Hn) Yd2 Yd N3 N4 ltac:(rewrite repeat_length; assumption) UV Z0) as (u' & q' & E & La & Lb & Fa & Fb & Va & Vb).
  clear UV Z0 Yd Yd2 Xd.
  rewrite E. cbn [bind fst snd].
  assert (Dd : d / 64 = 0) by (apply Z.div_small; clear - Hd; lia).
  destruct (rshift_ok true u' u' d Fa) as (r & -> & Fr & Vr & Lr); [clear - Hd; lia|rewrite Dd; clear - La Lu; lia|intros _; split; [reflexivity|clear - Hd; lia]|rewrite Dd; clear; lia|].
  cbn [bind]. exists q', r. split; auto. split; auto. split; auto. rewrite repeat_length in Lb. split; auto.
  rewrite Dd in Lr. split; [clear - Lr La Lu; lia|]. rewrite Vb, Vr, Va, Vu2, Vv2, value_repeat0. clear - Y0 P2. rewrite Z.div_mul_cancel_r, Z.mul_mod_distr_r, Z.div_mul by lia. split; [lia|reflexivity].
Qed.

(** short division *)
Lemma sdiv_loop_ok : forall rest dv pn q0, 0 < dv < HW -> word pn -> Forall word rest -> q0 = 0 \/ (exists h, half h /\ q0 = h * HW /\ pn < dv * HW) ->
  forall qs r, sdiv_loop dv pn q0 rest = (qs, r) -> length qs = S (length rest) /\ Forall word qs /\ 0 <= r < dv
   /\ value (rev qs) * dv + r = (pn + q0 * dv) * W ^ Z.of_nat (length rest) + value (rev rest).
Proof.
  induction rest as [|p t IH]; intros dv pn q0 Hd Hp Fr Hq qs r E; cbn [sdiv_loop] in E;
    pose proof (Z.div_mod pn dv ltac:(lia)) as DM; pose proof (Z.mod_pos_bound pn dv ltac:(lia)) as MB;
    (assert (Q1 : word (pn / dv + q0)) by
     (unfold word, half in *; assert (0 <= pn / dv) by (apply Z.div_pos; lia);
      destruct Hq as [->|(h & Hh & -> & Hl)];
      [assert (pn / dv <= pn) by (apply Z.div_le_upper_bound; nia); lia|
       assert (pn / dv < HW) by (apply Z.div_lt_upper_bound; lia); rewrite W_HW; nia])).
  - injection E as <- <-. rewrite uwrap_small by exact Q1. cbn [length rev app value]. split; auto. split; auto. split; auto. change (Z.of_nat 0) with 0. rewrite Z.pow_0_r.
    replace (value [pn / dv + q0]) with (pn / dv + q0) by (cbn [value]; lia). rewrite Z.mul_0_r. lia.
  - inversion Fr as [|? ? Wp Ft]; subst.
    pose proof (hi_half p) as Hh. pose proof (lo_half p) as Hl. pose proof (hi_lo p Wp) as Ep. unfold half in Hh, Hl.
    rewrite (uwrap_small (pn / dv + q0)) in E by exact Q1.
    rewrite (ushl32 (pn mod dv)) in E. rewrite (Z.mod_small (pn mod dv) HW) in E by lia. set (m := pn mod dv) in *.
    assert (R1 : word (m * HW + hi p)) by (apply half_join; unfold half; lia). rewrite (uwrap_small (m * HW + hi p)) in E by exact R1.
    set (r1 := m * HW + hi p) in *. assert (R1b : r1 < dv * HW) by (unfold r1; nia). unfold word in R1.
    pose proof (Z.div_mod r1 dv ltac:(lia)) as DM1. pose proof (Z.mod_pos_bound r1 dv ltac:(lia)) as MB1. assert (B1 : 0 <= r1 / dv < HW) by (split; [apply Z.div_pos; lia|apply Z.div_lt_upper_bound; lia]).
    rewrite !ushl32 in E. rewrite (Z.mod_small (r1 / dv) HW), (Z.mod_small (r1 mod dv) HW) in E by lia.
    assert (R2 : word (r1 mod dv * HW + lo p)) by (apply half_join; unfold half; lia). rewrite (uwrap_small (r1 mod dv * HW + lo p)) in E by exact R2.
    set (r0 := r1 mod dv) in *. set (h := r1 / dv) in *. set (p' := r0 * HW + lo p) in *.
    destruct (sdiv_loop dv p' (h * HW) t) as [qs1 rr1] eqn:E1. injection E as <- <-.
    destruct (IH dv p' (h * HW) Hd R2 Ft) with (qs := qs1) (r := rr1) as (L & F & Rb & V); auto.
    { right. exists h. unfold half. split; [lia|]. split; auto. unfold p'. nia. }
    cbn [length rev]. split; [lia|]. split; [now constructor|]. split; auto. rewrite !value_snoc, !rev_length, L, Wpow_S.
    set (PP := W ^ Z.of_nat (length t)) in *. set (vq := value (rev qs1)) in *. set (vt := value (rev t)) in *.
    enough (W * (pn / dv + q0) * dv + (p' + h * HW * dv) = (pn + q0 * dv) * W + p) as EE.
    { replace ((vq + W * PP * (pn / dv + q0)) * dv + rr1) with ((vq * dv + rr1) + PP * (W * (pn / dv + q0) * dv)) by ring. rewrite V.
      replace ((p' + h * HW * dv) * PP + vt + PP * (W * (pn / dv + q0) * dv)) with (PP * (W * (pn / dv + q0) * dv + (p' + h * HW * dv)) + vt) by ring. rewrite EE. ring. }
    unfold p'. rewrite Ep at 2. rewrite DM at 2. unfold r1 in DM1. fold m. rewrite W_HW. clear - DM1. 
    replace (r0 * HW + lo p + h * HW * dv) with ((dv * h + r0) * HW + lo p) by ring. rewrite <- DM1. ring.
Qed.
Lemma sdiv_ok : forall xs dv, Forall word xs -> xs <> [] -> 0 < dv < HW -> exists q, sdiv xs dv = Ok (q, value xs mod dv) /\ Forall word q /\ length q = length xs /\ value q = value xs / dv.
Proof.
  intros xs dv F N Hd. unfold sdiv. rewrite (proj2 (Z.eqb_neq _ _)) by lia. destruct (rev xs) as [|p t] eqn:E. { exfalso. apply N. rewrite <- (rev_involutive xs), E. reflexivity. }
  assert (Ex : xs = rev t ++ [p]) by (rewrite <- (rev_involutive xs), E; reflexivity).
  assert (F2 : Forall word (p :: t)) by (rewrite <- E; now apply Forall_rev). inversion F2; subst.
  destruct (sdiv_loop dv p 0 t) as [qs r] eqn:Es. destruct (sdiv_loop_ok t dv p 0 Hd H1 H2 ltac:(auto) qs r Es) as (L & Fq & Rb & V).
  assert (Ev : value (rev t ++ [p]) = value (rev qs) * dv + r). { rewrite value_snoc, rev_length, V. ring. }
  rewrite Ev. rewrite Z.add_comm, Z.mod_add, Z.div_add, Z.mod_small, Z.div_small by lia.
  exists (rev qs). split; auto. split; [now apply Forall_rev|]. split; [|lia]. rewrite rev_length, app_length, rev_length. cbn [length]. lia.
Qed.
