From Coq Require Import ZArith List Bool Arith Lia.
From Verif Require Import Outcome Utf8Model Utf8Spec Utf8Proofs StringModel StringSpec StringProofs SearchModel SearchSpec SearchProofs.
Import ListNotations.
Local Open Scope nat_scope.
Ltac Zify.zify_post_hook ::= idtac.

Definition cont (b : Z) : Prop := (128 <= b < 192)%Z.
Lemma tail_cont : forall n c b, In b (tail_bytes n c) -> cont b.
Proof. induction n; intros c b H; [destruct H|]. cbn [tail_bytes] in H. destruct H as [<-|H]; eauto. pose proof (Z.mod_pos_bound (c / 64 ^ Z.of_nat n) 64 ltac:(lia)). unfold cont. lia. Qed.
Lemma put_shape : forall c, valid_char c -> exists b bs, char_put c = b :: bs /\ ~ cont b /\ forall x, In x bs -> cont x.
Proof.
  intros c Hc. pose proof (char_get_putc c [] Hc) as G. rewrite app_nil_r in G. rewrite char_put_putc in * by (unfold valid_char in Hc; lia). rewrite putc_row in * by auto. unfold row_encode in *. eexists _, _. split; [reflexivity|]. split.
  - intros K. unfold cont in K. unfold char_get, utf8_getc in G. set (b := (row_lead (rownum c) + c / 64 ^ Z.of_nat (rownum c))%Z) in *. destruct (Z.leb_spec 128 b); [|lia]. destruct (Z.ltb_spec b 128); [lia|]. destruct (Z.ltb_spec b 192); [discriminate|lia].
  - intros x. apply tail_cont.
Qed.
Lemma enc_cons : forall c cs, enc (c :: cs) = char_put c ++ enc cs. Proof. reflexivity. Qed.
Lemma prefix_align : forall cs2 cs1 B, Forall valid_char cs1 -> Forall valid_char cs2 -> enc cs1 = enc cs2 ++ B -> exists q, cs1 = cs2 ++ q /\ B = enc q.
Proof.
  induction cs2 as [|d cs2 IH]; intros cs1 B V1 V2 E; [exists cs1; auto|]. inversion V2 as [|? ? Vd V2']; subst. destruct cs1 as [|c cs1].
  - exfalso. destruct (put_shape d Vd) as (b & bs & Eb & _). rewrite enc_cons, Eb in E. discriminate.
  - inversion V1 as [|? ? Vc V1']; subst. rewrite !enc_cons, <- app_assoc in E. assert (c = d). { pose proof (char_get_putc c (enc cs1) Vc) as G. rewrite E, char_get_putc in G by auto. now injection G. } subst d. apply app_inv_head in E. destruct (IH cs1 B V1' V2' E) as (q & -> & ->). exists q. auto.
Qed.
(** UTF-8 is self-synchronizing: an encoded text occurs only at character boundaries *)
Lemma align : forall cs1 cs2 A B, Forall valid_char cs1 -> Forall valid_char cs2 -> cs2 <> [] -> enc cs1 = A ++ enc cs2 ++ B -> exists p q, cs1 = p ++ cs2 ++ q /\ A = enc p /\ B = enc q.
Proof.
  induction cs1 as [|c cs1 IH]; intros cs2 A B V1 V2 N E.
  - exfalso. destruct cs2 as [|d cs2]; [contradiction|]. inversion V2; subst. destruct (put_shape d) as (b & bs & Eb & _); auto. rewrite enc_cons, Eb in E. destruct A; discriminate.
  - destruct A as [|a A].
    + cbn [app] in E. destruct (prefix_align cs2 (c :: cs1) B V1 V2 E) as (q & -> & ->). exists [], q. auto.
    + inversion V1 as [|? ? Vc V1']; subst. rewrite enc_cons in E.
      assert (K : exists A', a :: A = char_put c ++ A' /\ enc cs1 = A' ++ enc cs2 ++ B).
      { destruct (put_shape c Vc) as (b & bs & Eb & Nb & Cb). rewrite Eb in *. cbn [app] in E. injection E as <- E.
        assert (Nh : forall x t, enc cs2 ++ B = x :: t -> ~ cont x). { intros x t Ex. destruct cs2 as [|d cs2]; [contradiction|]. inversion V2; subst. destruct (put_shape d) as (b0 & bs0 & E0 & N0 & _); auto. rewrite enc_cons, E0 in Ex. injection Ex as <- _. exact N0. }
        assert (Ne : enc cs2 ++ B <> []). { destruct cs2 as [|d cs2]; [contradiction|]. inversion V2; subst. destruct (put_shape d) as (b0 & bs0 & E0 & _); auto. rewrite enc_cons, E0. discriminate. }
        clear - E Cb Nh Ne. revert A E. induction bs as [|x bs IH]; intros A E; [exists A; auto|]. destruct A as [|y A].
        - exfalso. cbn [app] in E. eapply (Nh x); [symmetry; exact E|]. apply Cb. now left.
        - cbn [app] in E. injection E as <- E. destruct IH with (A := A) as (A' & H1 & H2); auto. { intros z Hz. apply Cb. now right. } exists A'. split; auto. injection H1 as ->. reflexivity. }
      destruct K as (A' & EA & E'). destruct (IH cs2 A' B V1' V2 N E') as (p & q & -> & -> & ->). exists (c :: p), q. split; auto.
Qed.
Lemma off_lt : forall cs i j, Forall valid_char cs -> i < j -> j <= length cs -> off cs i < off cs j.
Proof.
  intros cs i j V L Lj. replace j with (i + (j - i)) by lia. rewrite off_plus. assert (0 < off (skipn i cs) (j - i)); [|lia]. destruct (skipn i cs) as [|c t] eqn:E. { apply (f_equal (@length Z)) in E. rewrite skipn_length in E. cbn in E. lia. }
  assert (Vc : valid_char c). { rewrite Forall_forall in V. apply V. rewrite <- (firstn_skipn i cs), E. apply in_or_app. right. now left. } destruct (j - i) as [|n] eqn:En; [lia|]. unfold off. cbn [firstn]. rewrite enc_cons, app_length. destruct (put_shape c Vc) as (b & bs & -> & _). cbn. lia.
Qed.
Lemma occurs_bytes : forall cs1 cs2 i, occurs_at cs1 cs2 i -> occurs_at (enc cs1) (enc cs2) (off cs1 i).
Proof. intros cs1 cs2 i (a & b & -> & <-). exists (enc a), (enc b). rewrite !enc_app. split; auto. unfold off. rewrite firstn_app, firstn_all, Nat.sub_diag. cbn [firstn]. now rewrite app_nil_r. Qed.
Lemma occurs_chars : forall cs1 cs2 k, Forall valid_char cs1 -> Forall valid_char cs2 -> cs2 <> [] -> occurs_at (enc cs1) (enc cs2) k -> exists i, k = off cs1 i /\ occurs_at cs1 cs2 i.
Proof. intros cs1 cs2 k V1 V2 N (A & B & E & L). destruct (align cs1 cs2 A B V1 V2 N E) as (p & q & -> & -> & ->). exists (length p). split; [|exists p, q; auto]. rewrite <- L. unfold off. rewrite firstn_app, firstn_all, Nat.sub_diag. cbn [firstn]. now rewrite app_nil_r. Qed.
Lemma occurs_len : forall {A} (s p : list A) i, occurs_at s p i -> i + length p <= length s.
Proof. intros A s p i (a & b & -> & <-). rewrite !app_length. lia. Qed.
Lemma leftmost_chars : forall cs1 cs2 k, Forall valid_char cs1 -> Forall valid_char cs2 -> cs2 <> [] -> leftmost (enc cs1) (enc cs2) k -> exists i, k = off cs1 i /\ leftmost cs1 cs2 i.
Proof.
  intros cs1 cs2 k V1 V2 N (O & M). destruct (occurs_chars cs1 cs2 k V1 V2 N O) as (i & -> & Oi). exists i. split; auto. split; auto. intros j Oj. pose proof (M _ (occurs_bytes _ _ _ Oj)) as Mj. destruct (Nat.leb_spec i j); auto. pose proof (occurs_len _ _ _ Oi). pose proof (off_lt cs1 j i V1 ltac:(lia) ltac:(lia)). lia.
Qed.
Lemma rightmost_chars : forall cs1 cs2 k, Forall valid_char cs1 -> Forall valid_char cs2 -> cs2 <> [] -> rightmost (enc cs1) (enc cs2) k -> exists i, k = off cs1 i /\ rightmost cs1 cs2 i.
Proof.
  intros cs1 cs2 k V1 V2 N (O & M). destruct (occurs_chars cs1 cs2 k V1 V2 N O) as (i & -> & Oi). exists i. split; auto. split; auto. intros j Oj. pose proof (M _ (occurs_bytes _ _ _ Oj)) as Mj. destruct (Nat.leb_spec j i); auto. pose proof (occurs_len _ _ _ Oj). pose proof (off_lt cs1 i j V1 ltac:(lia) ltac:(lia)). lia.
Qed.
Lemma absent_chars : forall cs1 cs2, absent (enc cs1) (enc cs2) -> absent cs1 cs2.
Proof. intros cs1 cs2 H i O. eapply H, occurs_bytes, O. Qed.

Lemma enc_le_len : forall cs, Forall valid_char cs -> forall i, off cs i + 0 >= 0. Proof. intros; lia. Qed.
Lemma piece_ok : forall b cs i j, holds b cs -> i <= j -> j <= length cs -> exists s, piece b (off cs i) (off cs j - off cs i) (j - i) false = Ok (VStr s) /\ holds s (firstn (j - i) (skipn i cs)).
Proof.
  intros b cs i j H L1 L2. pose proof H as H0. destruct (holds_enc b cs H) as (extra & V & Eb & Es & El & Ei & Fx). unfold piece, make_str.
  set (m := firstn (j - i) (skipn i cs)). assert (Lm : length m = j - i) by (unfold m; rewrite firstn_length, skipn_length; lia). assert (Vm : Forall valid_char m). { unfold m. rewrite Forall_forall in *. intros x Hx. apply V. rewrite <- (firstn_skipn i cs). apply in_or_app. right. rewrite <- (firstn_skipn (j - i) (skipn i cs)). apply in_or_app. now left. }
  assert (Em : off cs j - off cs i = length (enc m)). { replace j with (i + (j - i)) at 1 by lia. rewrite off_plus. unfold m, off. lia. }
  rewrite Em. pose proof (length_enc_ge m Vm). destruct (Nat.ltb_spec (length (enc m)) (j - i)); [lia|]. cbn [bind]. eexists. split; [reflexivity|].
  rewrite Eb, skipn_enc by lia. exists (enc m), (enc (skipn (j - i) (skipn i cs)) ++ extra). cbn [b_buf b_size b_len b_incomplete b_index]. split; [apply encodes_all_enc; auto|]. split. { rewrite app_assoc, <- enc_app. unfold m. now rewrite firstn_skipn. }
  split; auto. split; auto. split; auto. split. { apply Forall_app. split; auto. apply enc_bytes. rewrite Forall_forall in *. intros x Hx. apply V. rewrite <- (firstn_skipn i cs). apply in_or_app. right. rewrite <- (firstn_skipn (j - i) (skipn i cs)). apply in_or_app. now right. }
  split; auto. destruct H0 as (_ & _ & _ & _ & _ & _ & _ & _ & _ & Big). rewrite Es in Big. assert (length (enc m) <= length (enc cs)). { rewrite <- Em. pose proof (off_mono cs j). lia. } lia.
Qed.

Lemma pat_bytes : forall b cs, holds b cs -> firstn (b_size b) (b_buf b) = enc cs.
Proof. intros b cs H. destruct (holds_enc b cs H) as (extra & V & -> & -> & _). now rewrite firstn_app, firstn_all, Nat.sub_diag, app_nil_r. Qed.
Lemma holds_skip0 : forall cs : list Z, skipn 0 cs = cs. Proof. reflexivity. Qed.
(** prefilter *)
Lemma prefilter : forall b1 cs1 b2 cs2, holds b1 cs1 -> holds b2 cs2 -> b_size b1 = b_len b1 -> b_size b2 <> b_len b2 -> absent cs1 cs2.
Proof.
  intros b1 cs1 b2 cs2 H1 H2 E1 E2 i (a & b & -> & _). destruct (holds_enc b1 _ H1) as (x1 & V1 & _ & S1 & L1 & _). destruct (holds_enc b2 _ H2) as (x2 & V2 & _ & S2 & L2 & _). rewrite S1, L1 in E1. rewrite S2, L2 in E2.
  apply Forall_app in V1. destruct V1 as (Va & V1). apply Forall_app in V1. destruct V1 as (_ & Vb). rewrite !enc_app, !app_length in E1. pose proof (length_enc_ge a Va). pose proof (length_enc_ge b Vb). pose proof (length_enc_ge cs2 V2). lia.
Qed.
Lemma scan_found : forall b1 cs1 b2 cs2 mode i known, holds b1 cs1 -> holds b2 cs2 -> occurs_at cs1 cs2 i -> (known = None \/ known = Some i) ->
  exists vals, (match mode with
    | SCursor => Ok [VCursor (off cs1 i)]
    | _ =>
      do ci <- (match known with
                | Some c => Ok c
                | None => if b_incomplete b1 || b_incomplete b2 then Ok (off cs1 i) else
                          do n <- count_length (b_buf b1) (off cs1 i);
                          match n with Some n => Ok n | None => UB end
                end);
      let after := if (b_size b1 <? off cs1 i + b_size b2) || (negb (b_incomplete b1 || b_incomplete b2) && (b_len b1 <? ci + b_len b2)) then UB
                   else piece b1 (off cs1 i + b_size b2) (b_size b1 - off cs1 i - b_size b2) (b_len b1 - ci - b_len b2) (b_incomplete b1 || b_incomplete b2) in
      match mode with
      | SIndex | SCursor => Ok [VInt ci]
      | SBefore => do a <- piece b1 0 (off cs1 i) ci (b_incomplete b1 || b_incomplete b2); Ok [a]
      | SAfter => do a <- after; Ok [a]
      | SBefore2 => do a <- piece b1 0 (off cs1 i) ci (b_incomplete b1 || b_incomplete b2); do b <- piece b1 (off cs1 i) (b_size b1 - off cs1 i) (b_len b1 - ci) (b_incomplete b1 || b_incomplete b2); Ok [a; b]
      | SAfter2 => do a <- piece b1 0 (off cs1 i + b_size b2) (ci + b_len b2) (b_incomplete b1 || b_incomplete b2); do b <- after; Ok [a; b]
      | SBoth => do a <- piece b1 0 (off cs1 i) ci (b_incomplete b1 || b_incomplete b2); do b <- after; Ok [a; b]
      end
    end) = Ok vals /\ scan_result mode cs1 cs2 i vals.
Proof.
  intros b1 cs1 b2 cs2 mode i known H1 H2 Oc Hk. destruct (holds_enc b1 _ H1) as (x1 & V1 & B1 & S1 & L1 & I1 & _). destruct (holds_enc b2 _ H2) as (x2 & V2 & B2 & S2 & L2 & I2 & _). rewrite I1, I2. cbn [orb negb andb].
  pose proof (occurs_len _ _ _ Oc) as Lo.
  assert (Ci : (match known with Some c => Ok c | None => do n <- count_length (b_buf b1) (off cs1 i); match n with Some n => Ok n | None => UB end end) = Ok i).
  { destruct Hk as [->| ->]; auto. unfold count_length.
    assert (Eb : b_buf b1 = enc (firstn i cs1) ++ (enc (skipn i cs1) ++ x1)) by (rewrite B1, app_assoc, <- enc_app, firstn_skipn; reflexivity).
    rewrite Eb. unfold off. rewrite count_length_enc; [cbn [bind]; rewrite firstn_length; f_equal; lia| |lia]. rewrite Forall_forall in *. intros x Hx. apply V1. rewrite <- (firstn_skipn i cs1). apply in_or_app. now left. }
  assert (Oj : off cs1 i + b_size b2 = off cs1 (i + length cs2)). { destruct Oc as (a & b & -> & <-). rewrite S2. unfold off. rewrite firstn_app, firstn_all, Nat.sub_diag. cbn [firstn]. rewrite app_nil_r. rewrite firstn_app_2, firstn_app, firstn_all, Nat.sub_diag. cbn [firstn]. rewrite app_nil_r, enc_app, app_length. reflexivity. }
  assert (Oe : b_size b1 = off cs1 (length cs1)) by (rewrite S1, off_all; reflexivity).
  assert (Le : off cs1 (i + length cs2) <= b_size b1) by (rewrite S1; apply off_mono).
  assert (Af : exists s, (if (b_size b1 <? off cs1 i + b_size b2) || (b_len b1 <? i + b_len b2) then UB else piece b1 (off cs1 i + b_size b2) (b_size b1 - off cs1 i - b_size b2) (b_len b1 - i - b_len b2) false) = Ok (VStr s) /\ holds s (skipn (i + length cs2) cs1)).
  { rewrite Oj. destruct (Nat.ltb_spec (b_size b1) (off cs1 (i + length cs2))); [lia|]. destruct (Nat.ltb_spec (b_len b1) (i + b_len b2)); [lia|]. cbn [orb]. destruct (piece_ok b1 cs1 (i + length cs2) (length cs1) H1) as (s & E & Hs); [lia|lia|]. exists s. split.
    - rewrite <- E. f_equal; lia.
    - rewrite firstn_all2 in Hs by (rewrite skipn_length; lia). exact Hs. }
  assert (Bf : forall j, j <= length cs1 -> exists s, piece b1 0 (off cs1 j) j false = Ok (VStr s) /\ holds s (firstn j cs1)).
  { intros j Hj. destruct (piece_ok b1 cs1 0 j H1) as (s & E & Hs); [lia|lia|]. rewrite off_0, !Nat.sub_0_r in *. eauto. }
  assert (Fr : exists s, piece b1 (off cs1 i) (b_size b1 - off cs1 i) (b_len b1 - i) false = Ok (VStr s) /\ holds s (skipn i cs1)).
  { destruct (piece_ok b1 cs1 i (length cs1) H1) as (s & E & Hs); [lia|lia|]. exists s. rewrite Oe, L1. split; auto. rewrite firstn_all2 in Hs by (rewrite skipn_length; lia). exact Hs. }
  destruct Af as (sa & Ea & Ha). destruct (Bf i ltac:(lia)) as (sb & Eb & Hb). destruct (Bf (i + length cs2) Lo) as (su & Eu & Hu). destruct Fr as (sf & Ef & Hf).
  rewrite Ci. cbn [bind]. rewrite Oj in *. rewrite Ea, Eb, Ef. replace (i + b_len b2) with (i + length cs2) by lia. rewrite Eu. cbn [bind]. unfold scan_result.
  destruct mode; eexists; (split; [reflexivity|]); try reflexivity.
  - exists (enc (firstn i cs1)). split; [|reflexivity]. apply encodes_all_enc. split; auto. rewrite Forall_forall in *. intros x Hx. apply V1. rewrite <- (firstn_skipn i cs1). apply in_or_app. now left.
  - exists [sb]. split; auto.
  - exists [sa]. split; auto.
  - exists [sb; sf]. split; auto.
  - exists [su; sa]. split; auto.
  - exists [sb; sa]. split; auto.
Qed.
Lemma leftmost_nil : forall (s : list Z), leftmost s [] 0.
Proof. intros s. split; [exists [], s; auto|intros; lia]. Qed.
Lemma string_scan_ok : forall b1 cs1 b2 cs2 mode, holds b1 cs1 -> holds b2 cs2 ->
  exists vals, string_scan b1 b2 mode string_search = Ok vals /\ ((exists i, leftmost cs1 cs2 i /\ scan_result mode cs1 cs2 i vals) \/ (absent cs1 cs2 /\ scan_failure mode vals)).
Proof.
  intros b1 cs1 b2 cs2 mode H1 H2. destruct (holds_enc b1 _ H1) as (x1 & V1 & B1 & S1 & L1 & I1 & _). destruct (holds_enc b2 _ H2) as (x2 & V2 & B2 & S2 & L2 & I2 & _). unfold string_scan. rewrite (pat_bytes b2 cs2 H2).
  assert (Rf : absent cs1 cs2 -> exists vals, Ok (match mode with SIndex | SCursor | SBefore | SAfter => [VFalse] | _ => [VFalse; VFalse] end) = Ok vals /\ ((exists i, leftmost cs1 cs2 i /\ scan_result mode cs1 cs2 i vals) \/ (absent cs1 cs2 /\ scan_failure mode vals))). { intros Ab. eexists. split; [reflexivity|]. right. split; auto. reflexivity. }
  assert (Fl := fun i known (Lm : leftmost cs1 cs2 i) => scan_found b1 cs1 b2 cs2 mode i known H1 H2 (proj1 Lm)).
  destruct (negb (b_incomplete b1 || b_incomplete b2) && (b_size b1 =? b_len b1) && negb (b_size b2 =? b_len b2)) eqn:P.
  - cbn [bind]. apply Rf. apply andb_true_iff in P. destruct P as (P & P2). apply andb_true_iff in P. destruct P as (_ & P1). apply Nat.eqb_eq in P1. apply negb_true_iff, Nat.eqb_neq in P2. exact (prefilter b1 cs1 b2 cs2 H1 H2 P1 P2).
  - destruct cs2 as [|d cs2].
    + change (enc []) with (@nil Z). cbn [string_search bind]. destruct (Fl 0 (Some 0) (leftmost_nil cs1)) as (vals & E & R); auto. exists vals. split; [exact E|]. left. exists 0. auto using leftmost_nil.
    + assert (Ne : enc (d :: cs2) <> []). { inversion V2; subst. destruct (put_shape d) as (b & bs & Eb & _); auto. rewrite enc_cons, Eb. discriminate. }
      destruct (string_search_ok (b_buf b1) (b_size b1) (b_len b1) (enc (d :: cs2))) as (o & -> & Ho); auto. { rewrite B1, S1, app_length. lia. }
      rewrite (pat_bytes b1 cs1 H1) in Ho. cbn [bind]. destruct o as [[k [ci|]]|]; [contradiction| |].
      * destruct (leftmost_chars cs1 (d :: cs2) k V1 V2 ltac:(discriminate) Ho) as (i & -> & Li). destruct (Fl i None Li) as (vals & E & R); auto. exists vals. split; [exact E|]. left. eauto.
      * apply Rf. now apply absent_chars.
Qed.
Lemma string_scan_right_ok : forall b1 cs1 b2 cs2 mode, holds b1 cs1 -> holds b2 cs2 ->
  (b_size b1 < 256 \/ b_size b2 <= 1 \/ 256 <= b_size b2 \/ (b_size b1 < length (b_buf b1) /\ nth_error (b_buf b1) (b_size b1) <> nth_error (b_buf b2) (b_size b2 - 1))) ->
  exists vals, string_scan b1 b2 mode string_search_reverse = Ok vals /\ ((exists i, rightmost cs1 cs2 i /\ scan_result mode cs1 cs2 i vals) \/ (absent cs1 cs2 /\ scan_failure mode vals)).
Proof.
  intros b1 cs1 b2 cs2 mode H1 H2 Sf. destruct (holds_enc b1 _ H1) as (x1 & V1 & B1 & S1 & L1 & I1 & _). destruct (holds_enc b2 _ H2) as (x2 & V2 & B2 & S2 & L2 & I2 & _). unfold string_scan. rewrite (pat_bytes b2 cs2 H2).
  assert (Rf : absent cs1 cs2 -> exists vals, Ok (match mode with SIndex | SCursor | SBefore | SAfter => [VFalse] | _ => [VFalse; VFalse] end) = Ok vals /\ ((exists i, rightmost cs1 cs2 i /\ scan_result mode cs1 cs2 i vals) \/ (absent cs1 cs2 /\ scan_failure mode vals))). { intros Ab. eexists. split; [reflexivity|]. right. split; auto. reflexivity. }
  assert (Fl := fun i known (Lm : rightmost cs1 cs2 i) => scan_found b1 cs1 b2 cs2 mode i known H1 H2 (proj1 Lm)).
  destruct (negb (b_incomplete b1 || b_incomplete b2) && (b_size b1 =? b_len b1) && negb (b_size b2 =? b_len b2)) eqn:P.
  - cbn [bind]. apply Rf. apply andb_true_iff in P. destruct P as (P & P2). apply andb_true_iff in P. destruct P as (_ & P1). apply Nat.eqb_eq in P1. apply negb_true_iff, Nat.eqb_neq in P2. exact (prefilter b1 cs1 b2 cs2 H1 H2 P1 P2).
  - destruct cs2 as [|d cs2].
    + change (enc []) with (@nil Z). cbn [string_search_reverse bind]. assert (Li : rightmost cs1 [] (length cs1)). { split; [exists cs1, []; rewrite app_nil_r; auto|]. intros j Hj. apply occurs_len in Hj. lia. } destruct (Fl (length cs1) (Some (length cs1)) Li) as (vals & E & R); auto. exists vals. split; [rewrite S1, L1, <- off_all in *; exact E|]. left. eauto.
    + assert (Ne : enc (d :: cs2) <> []). { inversion V2; subst. destruct (put_shape d) as (b & bs & Eb & _); auto. rewrite enc_cons, Eb. discriminate. }
      destruct (string_search_reverse_ok (b_buf b1) (b_size b1) (b_len b1) (enc (d :: cs2))) as (o & -> & Ho); auto. { rewrite B1, S1, app_length. lia. }
      { rewrite <- S2. destruct Sf as [Sf|[Sf|[Sf|(Sf & Sf2)]]]; auto. - right. left. assert (b_size b2 <> 0); [|lia]. rewrite S2. destruct (enc (d :: cs2)); [contradiction|discriminate]. - right. right. right. split; auto. intros E. apply Sf2. rewrite E, B2, nth_error_app1; auto. rewrite S2. destruct (enc (d :: cs2)); [contradiction|cbn [length]; lia]. }
      rewrite (pat_bytes b1 cs1 H1) in Ho. cbn [bind]. destruct o as [[k [ci|]]|]; [contradiction| |].
      * destruct (rightmost_chars cs1 (d :: cs2) k V1 V2 ltac:(discriminate) Ho) as (i & -> & Li). destruct (Fl i None Li) as (vals & E & R); auto. exists vals. split; [exact E|]. left. eauto.
      * apply Rf. now apply absent_chars.
Qed.
(** string-split by a character *)
Lemma occurs_char : forall (cs : list Z) c, absent cs [c] <-> ~ In c cs.
Proof.
  intros cs c. split.
  - intros H Hi. apply in_split in Hi. destruct Hi as (a & b & ->). apply (H (length a)). exists a, b. auto.
  - intros H i (a & b & -> & _). apply H. apply in_or_app. right. now left.
Qed.
Lemma leftmost_char : forall (cs : list Z) c i, leftmost cs [c] i -> cs = firstn i cs ++ c :: skipn (i + 1) cs /\ ~ In c (firstn i cs).
Proof.
  intros cs c i ((a & b & -> & <-) & M). rewrite firstn_app, firstn_all, Nat.sub_diag. cbn [firstn]. rewrite app_nil_r. split.
  - f_equal. cbn [app]. f_equal. rewrite skipn_app. rewrite skipn_all2 by lia. replace (length a + 1 - length a) with 1 by lia. reflexivity.
  - intros Hi. apply in_split in Hi. destruct Hi as (a1 & a2 & ->). specialize (M (length a1)). rewrite app_length in M. cbn [length] in M. assert (length a1 + S (length a2) <= length a1); [|lia]. apply M. exists a1, (a2 ++ [c] ++ b). split; [now rewrite <- !app_assoc|auto].
Qed.
Lemma split_by_ok : forall f str cs c limit, holds str cs -> valid_char c -> length cs < f -> limit <> Some 0 ->
  exists bs ps, split_by f str (mkbody 1 (length (char_put c)) (char_put c) false None) limit = Ok bs /\ Forall2 holds bs ps /\ split_spec c limit cs ps.
Proof.
  induction f; intros str cs c limit H Vc Hf Hl; [lia|]. cbn [split_by].
  assert (Hc : holds (mkbody 1 (length (char_put c)) (char_put c) false None) [c]).
  { exists (char_put c), []. cbn [b_buf b_size b_len b_incomplete b_index]. split. { apply encodes_all_enc. split; [auto|]. unfold enc. cbn [map concat]. now rewrite app_nil_r. } rewrite app_nil_r. repeat (split; auto). rewrite char_put_putc by (unfold valid_char in Vc; lia). rewrite putc_length by auto. unfold nbytes. repeat match goal with |- context [if ?a then _ else _] => destruct a end; reflexivity. }
  destruct (string_scan_ok str cs _ [c] SBoth H Hc) as (vals & -> & [(i & Lm & bs & -> & F2)|(Ab & ->)]).
  - cbn [length] in F2. inversion F2 as [|v1 ? t1 ? Hv1 F3]; subst. inversion F3 as [|v2 ? t2 ? Hv2 F4]; subst. inversion F4; subst. cbn [bind map]. destruct (leftmost_char cs c i Lm) as (Ecs & Nc).
    pose proof (occurs_len _ _ _ (proj1 Lm)) as Lo. cbn [length] in Lo.
    assert (Rec : forall lim, lim <> Some 0 -> exists bs ps, split_by f v2 (mkbody 1 (length (char_put c)) (char_put c) false None) lim = Ok bs /\ Forall2 holds bs ps /\ split_spec c lim (skipn (i + 1) cs) ps). { intros lim Hlim. apply IHf; auto. rewrite skipn_length. lia. }
    assert (Jn : forall ps, ps <> [] -> join c ps = skipn (i + 1) cs -> join c (firstn i cs :: ps) = cs). { intros ps N E. destruct ps; [contradiction|]. change (firstn i cs ++ c :: join c (l :: ps) = cs). rewrite E. auto. }
    destruct limit as [[|[|n]]|]; [contradiction| | |].
    + exists [v1; v2], [firstn i cs; skipn (i + 1) cs]. split; auto. split; auto. split; [cbn [join]; auto|]. split; [discriminate|]. cbn [length firstn]. split; auto.
    + destruct (Rec (Some (S n)) ltac:(discriminate)) as (bs & ps & E & F & (J & N & Ln & Fn)). cbn [Nat.sub]. rewrite E. cbn [bind]. exists (v1 :: bs), (firstn i cs :: ps). split; auto. split; auto. split; auto. split; [discriminate|]. cbn [length]. split; [lia|]. change (firstn (S (S n)) (firstn i cs :: ps)) with (firstn i cs :: firstn (S n) ps). constructor; auto.
    + destruct (Rec None ltac:(discriminate)) as (bs & ps & E & F & (J & N & Fn)). rewrite E. cbn [bind]. exists (v1 :: bs), (firstn i cs :: ps). split; auto. split; auto. split; auto. split; [discriminate|]. constructor; auto.
  - cbn [bind]. exists [str], [cs]. split; auto. split; auto. split; [reflexivity|]. split; [discriminate|]. apply occurs_char in Ab. destruct limit as [n|]; [|auto]. cbn [length]. split; [lia|]. destruct n; [constructor|]. cbn [firstn]. constructor; auto. now rewrite firstn_nil.
Qed.
