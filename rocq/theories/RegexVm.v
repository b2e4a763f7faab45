(** The machine of RegexModel: code segments, one-step lemmas, and what an instruction does at a character position. *)
From Coq Require Import List ZArith Bool Lia.
From Verif Require Import Utf8Model Utf8Spec Utf8Proofs StringProofs SearchProofs2 RegexModel RegexSpec.
Import ListNotations.
Local Open Scope nat_scope.
Ltac Zify.zify_post_hook ::= idtac.

Lemma op_of_code o : op_of (u8 (code_of o)) = Some o.
Proof. destruct o; reflexivity. Qed.
Lemma emit_size its : length (flat_map emit_item its) = size its.
Proof. induction its as [|[b|t] l IH]; cbn; auto. Qed.
Lemma size_app a b : size (a ++ b) = size a + size b.
Proof. unfold size. induction a as [|x a IH]; cbn [app fold_right]; lia. Qed.
Lemma size_cons x a : size (x :: a) = isize x + size a.
Proof. reflexivity. Qed.
Lemma size_map_B l : size (map B l) = length l.
Proof. induction l; cbn in *; auto. Qed.

Lemma skipn_nth (w : list Z) : forall i ch, nth_error w i = Some ch -> skipn i w = ch :: skipn (S i) w.
Proof. induction w as [|a w IH]; intros [|i] ch H; cbn in *; try discriminate; [congruence|apply IH; exact H]. Qed.
Definition textok (c : ctx) (w extra : list Z) : Prop := Forall valid_char w /\ buf c = enc w ++ extra /\ stop c = length (enc w).
Section Vm.
Variable c : ctx.
Definition seg (pc : nat) (its : list item) : Prop :=
  exists pre post, code c = pre ++ flat_map emit_item its ++ post /\ length pre = pc /\ forallb item_ok its = true.
Lemma seg_app pc a b : seg pc (a ++ b) <-> seg pc a /\ seg (pc + size a) b.
Proof.
  split.
  - intros (pre & post & E & <- & F). rewrite forallb_app in F. apply andb_true_iff in F as (Fa & Fb). rewrite flat_map_app in E. split.
    + exists pre, (flat_map emit_item b ++ post). rewrite E, <- !app_assoc. auto.
    + exists (pre ++ flat_map emit_item a), post. rewrite E, <- !app_assoc, app_length, emit_size. auto.
  - intros ((pre & post & E & <- & Fa) & (pre' & post' & E' & L & Fb)).
    exists pre, post'. split; [|split; [reflexivity|rewrite forallb_app, Fa, Fb; reflexivity]].
    assert (pre' = pre ++ flat_map emit_item a).
    { rewrite E in E'. assert (L' : length pre' = length (pre ++ flat_map emit_item a)) by (rewrite app_length, emit_size; exact L).
      rewrite app_assoc in E'. remember (pre ++ flat_map emit_item a) as pa. apply (f_equal (firstn (length pre'))) in E'. rewrite L' in E' at 1.
      rewrite !firstn_app, !firstn_all, !Nat.sub_diag in E'. cbn [firstn] in E'. rewrite !app_nil_r in E'. symmetry. exact E'. }
    subst pre'. rewrite flat_map_app, <- !app_assoc in *. exact E'.
Qed.
Lemma seg_cons pc x l : seg pc (x :: l) <-> seg pc [x] /\ seg (pc + isize x) l.
Proof. change (x :: l) with ([x] ++ l). rewrite seg_app. cbn. rewrite Nat.add_0_r. reflexivity. Qed.
Lemma seg_B pc b l : seg pc (B b :: l) -> nth_error (code c) pc = Some (u8 b) /\ seg (S pc) l.
Proof.
  intros H. split.
  - destruct H as (pre & post & E & <- & _). rewrite E, nth_error_app2, Nat.sub_diag by lia. reflexivity.
  - apply seg_cons in H as (_ & H). replace (S pc) with (pc + isize (B b)) by (cbn; lia). exact H.
Qed.
Lemma seg_arg pc b l : seg pc (B b :: l) -> arg c pc = u8 b.
Proof. intros H. apply seg_B in H as (H & _). unfold arg. apply nth_error_nth. exact H. Qed.
Lemma seg_off pc t l : seg pc (Off t :: l) -> offset c pc = t /\ seg (pc + 2) l.
Proof.
  intros H. split.
  - destruct H as (pre & post & E & <- & F). unfold offset, arg.
    cbn [flat_map emit_item app] in E. cbn in F. apply andb_true_iff in F as (F & _). apply Z.leb_le in F.
    rewrite E, !app_nth2, Nat.sub_diag by lia. replace (S (length pre) - length pre) with 1 by lia. cbn [nth].
    assert (Z.of_nat t / 256 * 256 + Z.of_nat t mod 256 = Z.of_nat t)%Z as ->. { rewrite Z.mul_comm. symmetry. apply Z.div_mod. lia. }
    lia.
  - apply seg_cons in H as (_ & H). exact H.
Qed.
Lemma seg_bytes bs : forall pc l, Forall is_byte bs -> seg pc (map B bs ++ l) -> forall k, k < length bs -> arg c (pc + k) = nth k bs (-1)%Z.
Proof.
  induction bs as [|b bs IH]; intros pc l Hb H k Hk; cbn [length] in Hk; [lia|]. inversion Hb as [|? ? Hb0 Hb1]; subst.
  cbn [map app] in H. destruct k as [|k].
  - rewrite Nat.add_0_r. rewrite (seg_arg _ _ _ H). unfold u8. rewrite Z.mod_small by exact Hb0. reflexivity.
  - apply seg_B in H as (_ & H). replace (pc + S k) with (S pc + k) by lia. rewrite (IH _ _ Hb1 H k) by lia. reflexivity.
Qed.

Lemma run_mono f : forall pc p m r, run c f pc p m = Some r -> forall f', f <= f' -> run c f' pc p m = Some r.
Proof.
  induction f as [|f IH]; intros pc p m r H f' Hf; [discriminate|]. destruct f' as [|f']; [lia|].
  assert (M : forall pc p m r, run c f pc p m = Some r -> run c f' pc p m = Some r) by (intros; eapply IH; eauto; lia).
  cbn [run] in *. destruct (nth_error (code c) pc) as [b|]; [|exact H]. destruct (op_of b) as [o|]; [|exact H].
  destruct o; try (destruct (exec1 c _ (S pc) p); auto; fail);
  try (match type of H with context [run c f ?a ?b ?d] => destruct (run c f a b d) as [[m1|q1 m1|]|] eqn:E; rewrite ?(M _ _ _ _ E) end; auto; discriminate).
  { auto. }
  destruct (m (Z.to_nat (arg c (S pc)))) as ([s|],[e|]); auto. destruct (backref c p s (e - s)) as [[p'|]|]; auto.
Qed.
Definition runs pc p m r := exists f, run c f pc p m = Some r.
Lemma runs_det pc p m r r' : runs pc p m r -> runs pc p m r' -> r = r'.
Proof.
  intros (f & H) (f' & H'). apply run_mono with (f' := max f f') in H; [|lia]. apply run_mono with (f' := max f f') in H'; [|lia]. congruence.
Qed.
Definition plain (o : op) : bool :=
  match o with O_TRY | O_BEGIN | O_END | O_SUCCESS | O_ONCE | O_ASSERT | O_NASSERT | O_BACKREF => false | _ => true end.
Lemma run_plain o pc l : seg pc (OP o :: l) -> plain o = true -> forall f p m,
  run c (S f) pc p m = match exec1 c o (S pc) p with Go pc' p' => run c f pc' p' m | Fail => Some (Ret m) | Bad => Some Undef end.
Proof. intros H P f p m. apply seg_B in H as (H & _). cbn [run]. rewrite H, op_of_code. destruct o; try discriminate; reflexivity. Qed.
Lemma runs_go o pc l pc' p p' m r : seg pc (OP o :: l) -> plain o = true -> exec1 c o (S pc) p = Go pc' p' -> runs pc' p' m r -> runs pc p m r.
Proof. intros H P E (f & R). exists (S f). rewrite (run_plain o pc l) by assumption. rewrite E. exact R. Qed.
Lemma runs_fail o pc l p m : seg pc (OP o :: l) -> plain o = true -> exec1 c o (S pc) p = Fail -> runs pc p m (Ret m).
Proof. intros H P E. exists 1. rewrite (run_plain o pc l) by assumption. rewrite E. reflexivity. Qed.
Ltac opn H := let H0 := fresh in pose proof (proj1 (seg_B _ _ _ H)) as H0; cbn [run]; rewrite H0; clear H0; rewrite op_of_code.
Lemma runs_jump pc t l p m r : seg pc (OP O_JUMP :: Off t :: l) -> runs t p m r -> runs pc p m r.
Proof.
  intros H R. eapply runs_go; [exact H|reflexivity| |exact R]. apply seg_B in H as (_ & H). apply seg_off in H as (H & _).
  cbn [exec1]. rewrite H. reflexivity.
Qed.
Lemma try_off o pc t l : seg pc (OP o :: Off t :: l) -> offset c (S pc) = t.
Proof. intros H. apply seg_B in H as (_ & H). apply seg_off in H as (H & _). exact H. Qed.
Lemma runs_try_l pc t l p m q m' : seg pc (OP O_TRY :: Off t :: l) -> runs (pc + 3) p m (Jmp q m') -> runs pc p m (Jmp q m').
Proof. intros H (f & R). exists (S f). opn H. rewrite R. reflexivity. Qed.
Lemma runs_try_r pc t l p m m' r : seg pc (OP O_TRY :: Off t :: l) -> runs (pc + 3) p m (Ret m') -> runs t p m' r -> runs pc p m r.
Proof.
  intros H (f & R) (f' & R'). exists (S (max f f')). opn H. rewrite (run_mono _ _ _ _ _ R) by lia.
  rewrite (try_off _ _ _ _ H). apply run_mono with (f := f'); [exact R'|lia].
Qed.
Lemma runs_begin_l pc g l p m q m' : (g < 256) -> seg pc (OP O_BEGIN :: B (Z.of_nat g) :: l) ->
  runs (pc + 2) p (set_start m g p) (Jmp q m') -> runs pc p m (Jmp q m').
Proof.
  intros G H (f & R). exists (S f). opn H. pose proof (proj2 (seg_B _ _ _ H)) as H1. rewrite (seg_arg _ _ _ H1).
  unfold u8. rewrite Z.mod_small, Nat2Z.id by lia. rewrite R. reflexivity.
Qed.
Lemma runs_begin_r pc g l p m m' : (g < 256) -> seg pc (OP O_BEGIN :: B (Z.of_nat g) :: l) ->
  runs (pc + 2) p (set_start m g p) (Ret m') -> runs pc p m (Ret (set_both m' g (m g))).
Proof.
  intros G H (f & R). exists (S f). opn H. pose proof (proj2 (seg_B _ _ _ H)) as H1. rewrite (seg_arg _ _ _ H1).
  unfold u8. rewrite Z.mod_small, Nat2Z.id by lia. rewrite R. reflexivity.
Qed.
Lemma runs_end pc g l p m r : (g < 256) -> seg pc (OP O_END :: B (Z.of_nat g) :: l) ->
  runs (pc + 2) p (set_end m g p) r -> runs pc p m r.
Proof.
  intros G H (f & R). exists (S f). opn H. pose proof (proj2 (seg_B _ _ _ H)) as H1. rewrite (seg_arg _ _ _ H1).
  unfold u8. rewrite Z.mod_small, Nat2Z.id by lia. exact R.
Qed.
Lemma runs_success pc l p m : seg pc (OP O_SUCCESS :: l) -> runs pc p m (Jmp p m).
Proof. intros H. exists 1. opn H. reflexivity. Qed.
Lemma runs_assert_l pc t l p m q m' r : seg pc (OP O_ASSERT :: Off t :: l) -> runs (pc + 3) p m (Jmp q m') -> runs t p m' r -> runs pc p m r.
Proof.
  intros H (f & R) (f' & R'). exists (S (max f f')). opn H. rewrite (run_mono _ _ _ _ _ R) by lia.
  rewrite (try_off _ _ _ _ H). apply run_mono with (f := f'); [exact R'|lia].
Qed.
Lemma runs_assert_r pc t l p m m' : seg pc (OP O_ASSERT :: Off t :: l) -> runs (pc + 3) p m (Ret m') -> runs pc p m (Ret m').
Proof. intros H (f & R). exists (S f). opn H. rewrite R. reflexivity. Qed.
Lemma runs_nassert_l pc t l p m q m' : seg pc (OP O_NASSERT :: Off t :: l) -> runs (pc + 3) p m (Jmp q m') -> runs pc p m (Ret m').
Proof. intros H (f & R). exists (S f). opn H. rewrite R. reflexivity. Qed.
Lemma runs_nassert_r pc t l p m m' r : seg pc (OP O_NASSERT :: Off t :: l) -> runs (pc + 3) p m (Ret m') -> runs t p m' r -> runs pc p m r.
Proof.
  intros H (f & R) (f' & R'). exists (S (max f f')). opn H. rewrite (run_mono _ _ _ _ _ R) by lia.
  rewrite (try_off _ _ _ _ H). apply run_mono with (f := f'); [exact R'|lia].
Qed.

(** Positions in the text. *)
Variables (w extra : list Z).
Hypothesis HT : textok c w extra.
Lemma wv : Forall valid_char w. Proof. apply HT. Qed.
Lemma hbuf : buf c = enc w ++ extra. Proof. apply HT. Qed.
Lemma hstop : stop c = length (enc w). Proof. apply HT. Qed.
Notation pos i := (off w i).
Lemma at_lt i ch : at_ w i ch -> i < length w.
Proof. intros H. apply nth_error_Some. unfold at_ in H. congruence. Qed.
Lemma at_valid i ch : at_ w i ch -> valid_char ch.
Proof. intros H. pose proof wv as V. rewrite Forall_forall in V. apply V. eapply nth_error_In. exact H. Qed.
Lemma at_ex i : i < length w -> exists ch, at_ w i ch.
Proof. intros H. unfold at_. destruct (nth_error w i) eqn:E; eauto. apply nth_error_None in E. lia. Qed.
Lemma at_fun i a b : at_ w i a -> at_ w i b -> a = b. Proof. unfold at_. congruence. Qed.
Lemma skipn_at i ch : at_ w i ch -> skipn i w = ch :: skipn (S i) w.
Proof. apply skipn_nth. Qed.
Lemma rest_at i ch : at_ w i ch -> skipn (pos i) (buf c) = char_put ch ++ enc (skipn (S i) w) ++ extra.
Proof.
  intros H. rewrite hbuf, skipn_enc by (apply at_lt in H; lia). rewrite (skipn_at i ch) by assumption.
  rewrite enc_cons, app_assoc. reflexivity.
Qed.
Lemma get_at i ch : at_ w i ch -> get c (pos i) = Ch ch.
Proof. intros H. unfold get. rewrite (rest_at i ch) by assumption. apply char_get_putc. eapply at_valid; eassumption. Qed.
Lemma pos_S i ch : at_ w i ch -> pos (S i) = pos i + length (char_put ch).
Proof.
  intros H. replace (S i) with (i + 1) by lia. rewrite off_plus, (skipn_at i ch) by assumption. unfold off at 2. cbn [firstn].
  rewrite enc_cons. cbn [enc map concat]. unfold enc. cbn [map concat]. rewrite app_nil_r. reflexivity.
Qed.
Lemma nbytes_len ch : valid_char ch -> Z.to_nat (nbytes ch) = length (char_put ch).
Proof. intros H. rewrite char_put_putc by (unfold valid_char in H; lia). rewrite <- putc_length by assumption. lia. Qed.
Lemma byte_at i ch : at_ w i ch -> byte c (pos i) = hd (-1)%Z (char_put ch).
Proof.
  intros H. unfold byte. rewrite <- (firstn_skipn (pos i) (buf c)), app_nth2; rewrite firstn_length.
  2: lia.
  assert (pos i <= length (buf c)). { rewrite hbuf, app_length. pose proof (off_mono w i). lia. }
  replace (pos i - Nat.min (pos i) (length (buf c))) with 0 by lia. rewrite (rest_at i ch) by assumption.
  destruct (char_put_cons ch (at_valid _ _ H)) as (b & bs & -> & _). reflexivity.
Qed.
Lemma step_at i ch : at_ w i ch -> step_len c (pos i) = length (char_put ch).
Proof.
  intros H. unfold step_len. rewrite (byte_at i ch) by assumption. destruct (char_put_cons ch (at_valid _ _ H)) as (b & bs & -> & _ & E).
  cbn [hd length]. lia.
Qed.
Lemma pos_lt i j : i < j -> j <= length w -> pos i < pos j. Proof. apply off_lt. exact wv. Qed.
Lemma pos_le i j : i <= j -> j <= length w -> pos i <= pos j.
Proof. intros A B. destruct (Nat.eq_dec i j) as [->|]; [lia|]. assert (pos i < pos j) by (apply pos_lt; lia). lia. Qed.
Lemma pos_inj i j : i <= length w -> j <= length w -> pos i = pos j -> i = j.
Proof. intros A B E. destruct (Nat.lt_trichotomy i j) as [L|[L|L]]; auto; apply pos_lt in L; lia. Qed.
Lemma stop_pos : stop c = pos (length w). Proof. rewrite hstop, off_all. reflexivity. Qed.
Lemma pos_stop i : i <= length w -> (pos i = stop c <-> i = length w).
Proof. intros H. rewrite stop_pos. split; [|congruence]. apply pos_inj; lia. Qed.
Lemma eqb_stop i : i <= length w -> Nat.eqb (stop c) (pos i) = Nat.eqb i (length w).
Proof. intros H. destruct (Nat.eqb_spec i (length w)) as [E|E]; [apply Nat.eqb_eq|apply Nat.eqb_neq]; pose proof (pos_stop i H); intuition. Qed.
Lemma leb_stop i : i <= length w -> Nat.leb (stop c) (pos i) = Nat.eqb i (length w).
Proof.
  intros H. rewrite stop_pos. destruct (Nat.eqb_spec i (length w)) as [->|E]; [apply Nat.leb_refl|]. apply Nat.leb_gt. apply pos_lt; lia.
Qed.
Lemma at_end i : i <= length w -> (forall ch, ~ at_ w i ch) -> i = length w.
Proof. intros H N. destruct (Nat.eq_dec i (length w)); auto. destruct (at_ex i) as (ch & A); [lia|]. destruct (N ch A). Qed.
(** the first byte tells ASCII characters apart *)
Lemma lead_byte ch : valid_char ch -> ((ch < 128)%Z /\ char_put ch = [ch]) \/ ((128 <= ch)%Z /\ (128 <= hd (-1) (char_put ch))%Z /\ 2 <= length (char_put ch)).
Proof.
  intros H. destruct (Z.ltb_spec ch 128) as [L|L].
  - left. split; [exact L|]. unfold valid_char in H. rewrite char_put_putc by lia. unfold utf8_putc. replace (ch <? 128)%Z with true by lia.
    unfold u8. rewrite Z.mod_small by lia. reflexivity.
  - right. split; [exact L|]. split.
    + destruct (nfollows_putc ch H) as (b & bs & E & Hb & N & N2). rewrite char_put_putc by (unfold valid_char in H; lia). rewrite E. cbn [hd].
      destruct (Z.ltb_spec b 128) as [Lb|]; [|assumption]. exfalso. rewrite nfollows_rows in N2 by assumption. unfold nfollows_spec in N2.
      unfold is_byte in Hb. unfold nbytes in N2. repeat match type of N2 with context [(?a <? ?b)%Z] => destruct (Z.ltb_spec a b) end; lia.
    + rewrite <- nbytes_len by assumption. unfold nbytes. replace (ch <? 128)%Z with false by lia.
      repeat match goal with |- context [if ?a then _ else _] => destruct a end; lia.
Qed.
Lemma back_at i ch : at_ w i ch -> char_backward (buf c) (pos (S i)) = Back (pos i).
Proof.
  intros H. pose proof (pos_S i ch H) as E. rewrite E. rewrite hbuf. unfold off.
  pose proof H as H'. apply nth_error_split in H' as (l1 & l2 & E1 & E2). rewrite E1. rewrite <- E2, firstn_app, firstn_all, Nat.sub_diag. cbn [firstn]. rewrite app_nil_r.
  rewrite enc_app, enc_cons, <- !app_assoc. apply backward_enc.
  - pose proof wv as V. rewrite E1 in V. apply Forall_app in V as (A & _). exact A.
  - eapply at_valid. exact H.
Qed.
End Vm.
