(** Output ports: buffered files *)
From Coq Require Import ZArith List Bool Lia.
From Verif Require Import Outcome Utf8Model Utf8Spec Utf8Proofs StringSpec StringProofs PortModel PortProofs OutModel OutSpec.
Import ListNotations.
Local Open Scope nat_scope.
Ltac Zify.zify_post_hook ::= idtac.

(** ** Laying bytes over a file *)
Lemma overlay_nil f n : overlay f n [] = f. Proof. reflexivity. Qed.
Lemma overlay_cons f n d : d <> [] -> overlay f n d = firstn n (f ++ repeat 0%Z (n - length f)) ++ d ++ skipn (n + length d) f.
Proof. destruct d; [contradiction|reflexivity]. Qed.
Lemma pad_length f n : length (firstn n (f ++ repeat 0%Z (n - length f))) = n.
Proof. rewrite firstn_length, app_length, repeat_length. lia. Qed.
Lemma overlay_app f n d1 d2 : overlay (overlay f n d1) (n + length d1) d2 = overlay f n (d1 ++ d2).
Proof.
  destruct d1 as [|x d1]. { cbn [app length]. now rewrite Nat.add_0_r. }
  destruct d2 as [|y d2]. { rewrite app_nil_r. reflexivity. }
  rewrite (overlay_cons _ _ (y :: d2)), (overlay_cons f n (x :: d1)), (overlay_cons f n ((x :: d1) ++ y :: d2)) by (discriminate || (destruct d1; discriminate)).
  set (D1 := x :: d1). set (D2 := y :: d2). set (P := firstn n (f ++ repeat 0%Z (n - length f))). pose proof (pad_length f n) as LP. fold P in LP.
  assert (L : length (P ++ D1 ++ skipn (n + length D1) f) >= n + length D1) by (rewrite !app_length; lia).
  replace (n + length D1 - length (P ++ D1 ++ skipn (n + length D1) f)) with 0 by lia. cbn [repeat]. rewrite app_nil_r.
  rewrite (app_assoc P D1), firstn_app, firstn_all2 by (rewrite app_length; lia).
  replace (n + length D1 - length (P ++ D1)) with 0 by (rewrite app_length; lia). cbn [firstn]. rewrite app_nil_r.
  rewrite <- !app_assoc. f_equal. f_equal. f_equal. rewrite app_length.
  rewrite (app_assoc P D1), skipn_app. rewrite (skipn_all2 (P ++ D1)) by (rewrite app_length; lia). cbn [app]. rewrite app_length, LP, skipn_skipn'. f_equal. lia.
Qed.

(** ** Flushing *)
Definition writes_all (p : ofile) : Prop := forall t, o_size p <= o_oracle p t.
Lemma flusher_loop_S f p n cnt fo : flusher_loop (S f) p n cnt fo =
    if (negb fo && (n =? 0)) || (fo && (n <? cnt)) then
      let x := sys_write p (skipn n (o_buf p)) in flusher_loop f (fst x) (n + snd x) cnt fo
    else Ok (p, n).
Proof. reflexivity. Qed.
Lemma flusher_loop_ok f0 off0 cnt fo : forall fuel p n, o_file p = overlay f0 off0 (firstn n (o_buf p)) -> o_off p = off0 + n -> n <= length (o_buf p) -> o_buf p <> [] -> 0 < cnt ->
  (fo = true -> cnt <= length (o_buf p)) -> (if fo then cnt - n < fuel else (if n =? 0 then 1 else 0) < fuel) ->
  exists r t, flusher_loop fuel p n cnt fo = Ok (set_o p (overlay f0 off0 (firstn r (o_buf p))) (off0 + r) (o_buf p) t, r)
    /\ n <= r <= length (o_buf p) /\ (fo = true -> cnt <= r) /\ 0 < r /\ (writes_all p -> length (o_buf p) <= o_size p -> n = 0 -> r = length (o_buf p)).
Proof.
  induction fuel as [|f IH]; intros p n Hf Ho Hn Hb Hc Hcb Hfu; [destruct fo; lia|]. rewrite flusher_loop_S.
  assert (Go : forall m, n < length (o_buf p) -> 0 < m -> m <= length (o_buf p) - n ->
     overlay (o_file p) (o_off p) (firstn m (skipn n (o_buf p))) = overlay f0 off0 (firstn (n + m) (o_buf p)) ).
  { intros m L1 L2 L3. rewrite Hf, Ho. replace n with (length (firstn n (o_buf p))) at 2 by (rewrite firstn_length; lia). rewrite overlay_app. f_equal.
    rewrite <- (firstn_skipn n (o_buf p)) at 3. rewrite firstn_app, firstn_length. replace (Nat.min n (length (o_buf p))) with n by lia. rewrite firstn_firstn. replace (Nat.min (n + m) n) with n by lia. f_equal. f_equal. lia. }
  assert (Lb : 0 < length (o_buf p)) by (destruct (o_buf p); [contradiction|cbn; lia]).
  assert (Step : n < length (o_buf p) -> exists m t, sys_write p (skipn n (o_buf p)) = (set_o p (overlay f0 off0 (firstn (n + m) (o_buf p))) (off0 + (n + m)) (o_buf p) t, m) /\ 0 < m <= length (o_buf p) - n /\ (writes_all p -> length (o_buf p) <= o_size p -> m = length (o_buf p) - n)).
  { intros L. unfold sys_write. rewrite skipn_length. set (m := Nat.min (Nat.max 1 (o_oracle p (o_tick p))) (length (o_buf p) - n)). exists m, (S (o_tick p)). rewrite Go by lia. rewrite Ho, Nat.add_assoc. split; auto. split; [lia|]. intros W Ls. specialize (W (o_tick p)). lia. }
  destruct fo; cbn [negb andb orb].
  - destruct (Nat.ltb_spec n cnt) as [L|L].
    + destruct Step as (m & t & Es & Lm & Wm); [specialize (Hcb eq_refl); lia|]. rewrite Es. cbv zeta. cbn [fst snd]. set (p1 := set_o p _ _ _ t).
      destruct (IH p1 (n + m)) as (r & t' & E & R1 & R2 & R3 & R4); auto.
      * change (o_buf p1) with (o_buf p). specialize (Hcb eq_refl). lia.
      * lia.
      * exists r, t'. rewrite E. change (o_buf p1) with (o_buf p) in *. split; [reflexivity|]. split; [lia|]. split; auto. split; auto. intros W Ls ->. specialize (Wm W Ls). lia.
    + exists n, (o_tick p). rewrite <- Hf, <- Ho. split; [destruct p; reflexivity|]. split; [lia|]. split; auto. split; [lia|]. intros _ _ ->. lia.
  - rewrite orb_false_r. destruct (Nat.eqb_spec n 0) as [->|N].
    + destruct Step as (m & t & Es & Lm & Wm); [lia|]. rewrite Es. cbv zeta. cbn [fst snd]. destruct f as [|f]; [lia|]. rewrite flusher_loop_S. cbn [negb andb orb]. destruct (Nat.eqb_spec (0 + m) 0); [lia|]. cbn [orb].
      exists m, t. split; [reflexivity|]. split; [lia|]. split; [discriminate|]. split; [lia|]. intros W Ls _. specialize (Wm W Ls). lia.
    + exists n, (o_tick p). rewrite <- Hf, <- Ho. split; [destruct p; reflexivity|]. split; [lia|]. split; [discriminate|]. split; [lia|]. intros _ _ X. contradiction.
Qed.

(** ** The invariant *)
Definition show (s : wst) (k : nat) : wst := mkW (w_base s) (w_start s) (w_written s) k (w_col s) (w_mode s) (w_closed s).
Record oinv (size : nat) (oracle : nat -> nat) (p : ofile) (s : wst) : Prop := OI {
  oi_file : o_file p = w_visible s; oi_off : o_off p = w_start s + w_shown s; oi_buf : o_buf p = skipn (w_shown s) (w_written s);
  oi_shown : w_shown s <= length (w_written s); oi_len : length (o_buf p) <= size; oi_size : o_size p = size; oi_mode : o_mode p = w_mode s;
  oi_closed : o_closed p = w_closed s; oi_col : o_col p = w_col s; oi_flushed : o_flushed p = true -> o_buf p = []; oi_oracle : o_oracle p = oracle }.
Section Inv.
Context (size : nat) (Hsize : 1 <= size) (oracle : nat -> nat).
Definition fullw : Prop := forall t, size <= oracle t.
Notation oinv := (oinv size oracle).
Lemma flush_ok p s cnt fo : oinv p s -> (fo = true -> (cnt <= 0)%Z) ->
  exists p' k, bufport_flush p cnt fo = Ok p' /\ oinv p' (show s k) /\ w_shown s <= k <= length (w_written s) /\ (fo = true -> k = length (w_written s)) /\ (fullw -> k = length (w_written s))
    /\ (w_shown s < length (w_written s) -> w_shown s < k) /\ o_flushed p' = o_flushed p.
Proof.
  intros I Hfo. pose proof I as [A B C D E F G H J K L]. unfold bufport_flush. rewrite C, skipn_length. destruct (Nat.eqb_spec (length (w_written s) - w_shown s) 0) as [Zr|Zr].
  - exists p, (w_shown s). split; auto. split; [destruct s; exact I|]. repeat split; auto; try lia.
  - set (c := if (cnt <=? 0)%Z then _ else _). assert (Hb : o_buf p <> []) by (rewrite C; intros X; apply (f_equal (@length BinNums.Z)) in X; rewrite skipn_length in X; cbn in X; lia).
    assert (Lb : length (o_buf p) = length (w_written s) - w_shown s) by (rewrite C; apply skipn_length).
    assert (Hc : 0 < c) by (unfold c; destruct (Z.leb_spec cnt 0); lia).
    destruct (flusher_loop_ok (o_file p) (o_off p) c fo (S (S c)) p 0) as (r & t & Er & R1 & R2 & R3 & R4); auto.
    + lia.
    + intros ->. unfold c. specialize (Hfo eq_refl). apply Z.leb_le in Hfo as ->. lia.
    + destruct fo; cbn [Nat.eqb]; lia.
    + rewrite Er. cbn [bind fst snd]. exists (set_obuf (set_o p (overlay (o_file p) (o_off p) (firstn r (o_buf p))) (o_off p + r) (o_buf p) t) (skipn r (o_buf p))), (w_shown s + r).
      split. { destruct (Nat.ltb_spec r (length (w_written s) - w_shown s)); auto. rewrite skipn_all2 by lia. reflexivity. }
      split.
      { constructor; cbn [set_obuf set_o o_file o_off o_buf o_size o_mode o_flushed o_closed o_col o_oracle show w_base w_start w_written w_shown w_col w_mode w_closed]; auto.
        - rewrite A, B. unfold w_visible. cbn [show w_base w_start w_written w_shown]. replace (w_shown s) with (length (firstn (w_shown s) (w_written s))) at 2 by (rewrite firstn_length; lia). rewrite overlay_app. f_equal.
          rewrite C. rewrite <- (firstn_skipn (w_shown s) (w_written s)) at 3. rewrite firstn_app, firstn_length, firstn_firstn. replace (Nat.min (w_shown s + r) (w_shown s)) with (w_shown s) by lia. f_equal. f_equal. lia.
        - lia.
        - rewrite C, skipn_skipn'. reflexivity.
        - lia.
        - rewrite skipn_length. lia.
        - intros X. rewrite (K X). now rewrite skipn_nil. }
      split; [lia|]. split.
      { intros ->. specialize (R2 eq_refl). unfold c in R2. specialize (Hfo eq_refl). apply Z.leb_le in Hfo. rewrite Hfo in R2. lia. }
      split. { intros W. rewrite R4; auto; try lia. intros t'. rewrite F, L. apply W. }
      split; [lia|reflexivity].
Qed.
Lemma oinv_flushed p s : oinv p s -> oinv (set_flushed p false) s.
Proof. intros [A B C D E F G H J K L]. constructor; cbn; auto. discriminate. Qed.
(** storing bytes for which there is room *)
Lemma put_ok p s d : oinv p s -> length (o_buf p) + length d <= size -> o_flushed p = false ->
  exists p', buf_put p d = Ok p' /\ oinv p' (wrote s d (w_shown s) (w_col s)) /\ o_flushed p' = false.
Proof.
  intros [A B C D E F G H J K L] Hl Hf. unfold buf_put. rewrite F. apply Nat.leb_le in Hl as Hl'. rewrite Hl'. eexists. split; [reflexivity|]. split; [|exact Hf].
  constructor; cbn [set_obuf set_o o_file o_off o_buf o_size o_mode o_flushed o_closed o_col o_oracle wrote w_base w_start w_written w_shown w_col w_mode w_closed]; auto.
  - rewrite A. unfold w_visible. cbn [wrote w_base w_start w_written w_shown]. f_equal. rewrite firstn_app. replace (w_shown s - length (w_written s)) with 0 by lia. cbn [firstn]. now rewrite app_nil_r.
  - rewrite C, skipn_app. replace (w_shown s - length (w_written s)) with 0 by lia. reflexivity.
  - rewrite app_length. lia.
  - rewrite app_length. lia.
  - congruence.
Qed.
Lemma wrote_wrote s d1 k1 c1 d2 k2 c2 : wrote (wrote s d1 k1 c1) d2 k2 c2 = wrote s (d1 ++ d2) k2 c2.
Proof. unfold wrote. cbn. now rewrite app_assoc. Qed.
Lemma bufport_write_S f p src : bufport_write (S f) p src =
    let room := o_size p - length (o_buf p) in
    if length src <=? room then buf_put p src
    else do p1 <- buf_put p (firstn room src); do p2 <- bufport_flush p1 0 false; bufport_write f p2 (skipn room src).
Proof. reflexivity. Qed.
Lemma write_ok : forall fuel p s src, oinv p s -> o_flushed p = false -> length src + (if length (o_buf p) <? size then 1 else 2) <= fuel ->
  exists p' k, bufport_write fuel p src = Ok p' /\ oinv p' (wrote s src k (w_col s)) /\ w_shown s <= k <= length (w_written s) + length src /\ o_flushed p' = false.
Proof.
  induction fuel as [|f IH]; intros p s src I Hf Hfu; [destruct (length (o_buf p) <? size); lia|]. rewrite bufport_write_S. cbv zeta. pose proof I as [A B C D E F G H J K L]. rewrite F. destruct (Nat.leb_spec (length src) (size - length (o_buf p))) as [R|R].
  - destruct (put_ok p s src I) as (p' & E1 & I1 & F1); auto; try lia. exists p', (w_shown s). rewrite E1. split; auto. split; auto. split; [lia|auto].
  - set (room := size - length (o_buf p)) in *. assert (Lf : length (firstn room src) = room) by (rewrite firstn_length; lia).
    destruct (put_ok p s (firstn room src) I) as (p1 & E1 & I1 & F1); auto; try lia. rewrite E1. cbn [bind].
    destruct (flush_ok p1 _ 0 false I1) as (p2 & k & E2 & I2 & K1 & _ & _ & K2 & F2); [discriminate|]. rewrite E2. cbn [bind].
    change (show (wrote s (firstn room src) (w_shown s) (w_col s)) k) with (wrote s (firstn room src) k (w_col s)) in I2. cbn [wrote w_shown w_written] in K1, K2. rewrite app_length, Lf in K1, K2.
    assert (Lb : length (o_buf p) = length (w_written s) - w_shown s) by (rewrite C; apply skipn_length).
    assert (Lb2 : length (o_buf p2) < size). { rewrite (oi_buf _ _ _ _ I2). cbn [wrote w_written w_shown]. rewrite skipn_length, app_length, Lf. lia. }
    destruct (IH p2 _ (skipn room src) I2) as (p3 & k3 & E3 & I3 & K3 & F3); [congruence| |].
    { apply Nat.ltb_lt in Lb2. rewrite Lb2. rewrite skipn_length. destruct (Nat.ltb_spec (length (o_buf p)) size); lia. }
    exists p3, k3. rewrite E3. rewrite wrote_wrote, firstn_skipn in I3. cbn [wrote w_col w_shown w_written] in *. rewrite app_length, skipn_length, Lf in K3. split; auto. split; auto. split; [lia|auto].
Qed.
End Inv.
