From Coq Require Import ZArith List Lia Bool ZifyBool ZifyNat.
From Verif Require Import Outcome Utf8Model Utf8Spec Utf8Proofs StringModel StringSpec.
Import ListNotations.
Local Open Scope nat_scope.
Ltac Zify.zify_post_hook ::= idtac.

Definition enc (cs : list Z) : list Z := concat (map char_put cs).
Definition off (cs : list Z) (i : nat) : nat := length (enc (firstn i cs)).

Lemma encodes_all_enc cs bs : encodes_all cs bs <-> Forall valid_char cs /\ bs = enc cs.
Proof.
  split.
  - induction 1 as [|c cs bs bss Hv He Hr [IHv IHe]]; [split; [constructor|reflexivity]|].
    split; [constructor; assumption|]. cbn. unfold enc in IHe. rewrite <- IHe.
    f_equal. eapply encodes_unique; [eassumption|]. apply putc_encodes; assumption.
  - intros [Hv ->]. induction Hv as [|c cs Hc Hv IH]; [constructor|].
    cbn. constructor; [assumption|apply putc_encodes; assumption|assumption].
Qed.

Lemma enc_app a b : enc (a ++ b) = enc a ++ enc b.
Proof. unfold enc. rewrite map_app, concat_app. reflexivity. Qed.

Lemma char_put_cons c : valid_char c -> exists b bs,
  char_put c = b :: bs /\ is_byte b /\ Z.to_nat (nfollows b) = length bs.
Proof.
  intros Hc. destruct (nfollows_putc c Hc) as (b & bs & E & Hb & Hn & _).
  exists b, bs. rewrite char_put_putc by (unfold valid_char in Hc; lia).
  repeat split; [assumption|apply Hb|apply Hb|]. lia.
Qed.

Lemma char_put_bytes c : valid_char c -> Forall is_byte (char_put c).
Proof. intros Hc. rewrite char_put_putc by (unfold valid_char in Hc; lia). apply putc_bytes; assumption. Qed.

Lemma enc_bytes cs : Forall valid_char cs -> Forall is_byte (enc cs).
Proof.
  induction 1 as [|c cs Hc Hv IH]; [constructor|]. unfold enc; cbn. apply Forall_app. split; [|exact IH].
  apply char_put_bytes; assumption.
Qed.

Lemma length_enc_ge cs : Forall valid_char cs -> length cs <= length (enc cs).
Proof.
  induction 1 as [|c cs Hc Hv IH]; [reflexivity|]. unfold enc in *; cbn. rewrite app_length.
  destruct (char_put_cons c Hc) as (b & bs & -> & _). cbn. lia.
Qed.

Lemma off_app pre cs i : off (pre ++ cs) (length pre + i) = length (enc pre) + off cs i.
Proof. unfold off. rewrite firstn_app_2, enc_app, app_length. reflexivity. Qed.

Lemma off_0 cs : off cs 0 = 0.
Proof. reflexivity. Qed.
Lemma off_all cs : off cs (length cs) = length (enc cs).
Proof. unfold off. rewrite firstn_all. reflexivity. Qed.
Lemma off_skip cs i : length (enc cs) = off cs i + length (enc (skipn i cs)).
Proof. unfold off. rewrite <- app_length, <- enc_app, firstn_skipn. reflexivity. Qed.

Lemma fwd_enc cs : forall pre n extra, Forall valid_char cs -> n <= length cs ->
  fwd (pre ++ enc cs ++ extra) (length pre) n = Some (length pre + off cs n).
Proof.
  induction cs as [|c cs IH]; intros pre n extra Hv Hn.
  - destruct n; [cbn [fwd]; rewrite off_0; f_equal; lia|cbn in Hn; lia].
  - destruct n as [|n]; [cbn [fwd]; rewrite off_0; f_equal; lia|].
    inversion Hv as [|? ? Hc Hv']; subst.
    cbn [fwd]. destruct (char_put_cons c Hc) as (b & bs & E & Hb & Hn').
    unfold enc. cbn [map concat]. rewrite E. cbn [app].
    rewrite nth_error_app2, Nat.sub_diag by lia. cbn [nth_error]. rewrite Hn'.
    replace (pre ++ b :: (bs ++ concat (map char_put cs)) ++ extra)
      with ((pre ++ b :: bs) ++ enc cs ++ extra)
      by (unfold enc; rewrite <- !app_assoc; cbn; rewrite <- ?app_assoc; reflexivity).
    replace (length pre + length bs + 1) with (length (pre ++ b :: bs)) by (rewrite app_length; cbn; lia).
    rewrite IH by (assumption || (cbn in Hn; lia)).
    f_equal. unfold off. cbn [firstn]. unfold enc. cbn [map concat]. rewrite E, !app_length. cbn [length]. lia.
Qed.

Lemma fwd_off cs extra i n : Forall valid_char cs -> i + n <= length cs ->
  fwd (enc cs ++ extra) (off cs i) n = Some (off cs (i + n)).
Proof.
  intros Hv Hl.
  rewrite <- (firstn_skipn i cs) at 1. rewrite enc_app, <- app_assoc.
  assert (Hvs : Forall valid_char (skipn i cs)).
  { rewrite <- (firstn_skipn i cs) in Hv. apply Forall_app in Hv. tauto. }
  unfold off at 1. rewrite fwd_enc; [|assumption|rewrite skipn_length; lia].
  f_equal. rewrite <- (firstn_skipn i cs) at 3.
  replace (i + n) with (length (firstn i cs) + n) by (rewrite firstn_length; lia).
  rewrite off_app. reflexivity.
Qed.

(** When the size equals the length, every character is a single byte. *)
Lemma ascii_enc cs : Forall valid_char cs -> length (enc cs) = length cs ->
  enc cs = cs /\ Forall (fun c => (0 <= c < 128)%Z) cs.
Proof.
  induction 1 as [|c cs Hc Hv IH]; intros Hl; [split; [reflexivity|constructor]|].
  unfold enc in *. cbn in *. rewrite app_length in Hl.
  pose proof (length_enc_ge cs Hv) as Hge. unfold enc in Hge.
  assert (length (char_put c) = 1 /\ length (concat (map char_put cs)) = length cs) as [H1 H2].
  { destruct (char_put_cons c Hc) as (b & bs & E & _). rewrite E in *. cbn in *. lia. }
  destruct (IH H2) as [IH1 IH2]. rewrite IH1.
  assert (Hc' : (0 <= c < 128)%Z).
  { rewrite char_put_putc in H1 by (unfold valid_char in Hc; lia).
    pose proof (putc_length c Hc) as Hp. rewrite H1 in Hp. unfold nbytes in Hp. unfold valid_char in Hc.
    destruct (Z.ltb_spec c 0x80); [lia|].
    repeat match type of Hp with context [if ?a then _ else _] => destruct a end; discriminate. }
  split; [|constructor; assumption].
  unfold char_put. replace (128 <=? c)%Z with false by lia. unfold u8.
  rewrite Z.mod_small by lia. reflexivity.
Qed.

Lemma off_ascii cs i : Forall valid_char cs -> length (enc cs) = length cs -> i <= length cs -> off cs i = i.
Proof.
  intros Hv Hl Hi. pose proof (off_skip cs i) as H.
  assert (Hv1 : Forall valid_char (firstn i cs) /\ Forall valid_char (skipn i cs)).
  { rewrite <- (firstn_skipn i cs) in Hv. apply Forall_app in Hv. tauto. }
  destruct Hv1 as [Hv1 Hv2].
  pose proof (length_enc_ge _ Hv1) as H1. pose proof (length_enc_ge _ Hv2) as H2.
  rewrite firstn_length in H1. rewrite skipn_length in H2. unfold off in *. lia.
Qed.

Lemma forward_pos_off b cs bs extra i n :
  Forall valid_char cs -> b_buf b = enc cs ++ extra -> b_size b = length (enc cs) ->
  b_len b = length cs -> b_incomplete b = false -> bs = enc cs -> i + n <= length cs ->
  forward_pos b (off cs i) n = Ok (off cs (i + n)).
Proof.
  intros Hv Hbuf Hs Hl Hi _ Hn. unfold forward_pos. rewrite Hi, orb_false_r. unfold single_byte.
  rewrite Hs, Hl, Hbuf. destruct (Nat.eqb_spec (length (enc cs)) (length cs)) as [E|E].
  - rewrite !off_ascii by (assumption || lia). reflexivity.
  - rewrite fwd_off by assumption. reflexivity.
Qed.

(** ** The index *)
Lemma index_sig_shift s t : (1 <= s <= 8)%Z -> (0 <= t < 8)%Z ->
  index_shift (index_signature s t) = s /\ index_type (index_signature s t) = t.
Proof.
  intros Hs Ht.
  assert (H : forallb (fun s => forallb (fun t =>
     (index_shift (index_signature (Z.of_nat s) (Z.of_nat t)) =? Z.of_nat s)%Z &&
     (index_type (index_signature (Z.of_nat s) (Z.of_nat t)) =? Z.of_nat t)%Z) (seq 0 8)) (seq 1 8) = true)
    by (vm_compute; reflexivity).
  rewrite forallb_forall in H. specialize (H (Z.to_nat s)).
  rewrite forallb_forall in H by (apply in_seq; lia). specialize (H ltac:(apply in_seq; lia) (Z.to_nat t)).
  rewrite !Z2Nat.id in H by lia. specialize (H ltac:(apply in_seq; lia)).
  apply andb_true_iff in H. destruct H as [H1 H2]. apply Z.eqb_eq in H1, H2. auto.
Qed.

(** BUILD_ARRAY's loop succeeds and its i-th entry is the offset of character
    (i+1)*interval, truncated to the element width. *)
Lemma build_entries_ok b cs extra interval w : 
  Forall valid_char cs -> b_buf b = enc cs ++ extra -> b_size b = length (enc cs) ->
  b_len b = length cs -> b_incomplete b = false ->
  forall k i, i + k * interval <= length cs ->
  exists l, build_entries b (off cs i) interval w k = Ok l /\ length l = k /\
    forall j, j < k -> nth_error l j = Some (Z.of_nat (off cs (i + (j + 1) * interval)) mod 2 ^ w)%Z.
Proof.
  intros Hv Hbuf Hs Hl Hi. induction k as [|k IH]; intros i Hk.
  - exists []. split; [reflexivity|]. split; [reflexivity|]. intros j Hj; lia.
  - cbn [build_entries]. erewrite forward_pos_off; eauto; [|lia]. cbn [bind].
    destruct (IH (i + interval)) as (l & E & El & Hn); [lia|].
    rewrite E. cbn [bind]. eexists. split; [reflexivity|]. split; [cbn; congruence|].
    intros [|j] Hj; cbn [nth_error].
    + do 3 f_equal. f_equal. lia.
    + rewrite Hn by lia. do 3 f_equal. f_equal. lia.
Qed.

Lemma off_mono cs i : off cs i <= length (enc cs).
Proof. pose proof (off_skip cs i). lia. Qed.

Section IndexLookup.
Variables (b : body) (cs extra : list Z).
Hypothesis Hv : Forall valid_char cs.
Hypothesis Hbuf : b_buf b = enc cs ++ extra.
Hypothesis Hs : b_size b = length (enc cs).
Hypothesis Hl : b_len b = length cs.
Hypothesis Hi : b_incomplete b = false.

Let bi v := mkbody (b_len b) (b_size b) (b_buf b) (b_incomplete b) (Some v).

Lemma build_array_lookup w t shift v n :
  (1 <= shift <= 8) -> (0 <= t < 8)%Z ->
  (t = 0 \/ t = 1 \/ t = 3 \/ t = 5)%Z ->
  (0 <= w)%Z -> (Z.of_nat (length (enc cs)) < 2 ^ w)%Z -> 64 <= length (enc cs) ->
  build_array b w t shift = Ok v ->
  n <= length cs ->
  index2ptr (bi v) n =
    if (n =? length cs) && (Nat.modulo n (Nat.pow 2 shift) =? 0) then
      (if 0 <? n then Panic else Ok (off cs n))
    else Ok (off cs n).
Proof.
  intros Hsh Ht Ht' Hw Hfit H64 Hb Hn.
  destruct (index_sig_shift (Z.of_nat shift) t) as [E1 E2]; [lia|lia|].
  assert (Htt : ((t =? 0) || (t =? 1) || (t =? 3) || (t =? 5))%Z = true) by (clear - Ht'; lia).
  clear Ht Ht'.
  set (interval := Nat.pow 2 shift) in *.
  assert (Hint : 2 <= interval).
  { subst interval. destruct shift as [|s]; [lia|]. cbn [Nat.pow].
    pose proof (Nat.pow_nonzero 2 s ltac:(lia)). lia. }
  unfold build_array in Hb. fold interval in Hb. unfold compute_index_size in Hb. rewrite Hl in Hb.
  set (N := (length cs + interval - 1) / interval) in *.
  assert (HN : N * interval <= length cs + interval - 1 /\ length cs + interval - 1 < N * interval + interval).
  { subst N. pose proof (Nat.div_mod (length cs + interval - 1) interval ltac:(lia)).
    pose proof (Nat.mod_upper_bound (length cs + interval - 1) interval ltac:(lia)). lia. }
  clearbody N.
  replace (N + 1 - 2) with (N - 1) in Hb by lia.
  assert (Hprod : (N - 1) * interval <= length cs).
  { rewrite Nat.mul_sub_distr_r. lia. }
  destruct (build_entries_ok b cs extra interval w Hv Hbuf Hs Hl Hi (N - 1) 0 ltac:(lia))
    as (l & El & Ell & Eln).
  rewrite off_0 in El. rewrite El in Hb. cbn [bind] in Hb. inversion Hb; subst v; clear Hb.
  pose proof (length_enc_ge cs Hv) as Hge.
  assert (HNfit : (Z.of_nat (N + 1) < 2 ^ w)%Z).
  { assert (2 * N <= N * interval) by (apply Nat.le_trans with (N * 2); [lia|apply Nat.mul_le_mono_l; lia]).
    (* N <= (len + interval - 1)/interval <= len/2 + 1 *)
    assert (N <= 1 \/ 2 * (N - 1) <= length cs).
    { destruct (Nat.le_gt_cases N 1); [left; assumption|right].
      apply Nat.le_trans with ((N - 1) * interval); [|lia].
      rewrite (Nat.mul_comm 2). apply Nat.mul_le_mono_l. lia. }
    lia. }
  unfold index2ptr, bi. cbn [b_index nth].
  rewrite E1, E2.
  rewrite Z.shiftr_div_pow2 by lia.
  assert (Epow : (2 ^ Z.of_nat shift)%Z = Z.of_nat interval).
  { subst interval. rewrite Nat2Z.inj_pow. reflexivity. }
  rewrite Epow.
  assert (Eq : (Z.of_nat n / Z.of_nat interval)%Z = Z.of_nat (n / interval)) by (rewrite Nat2Z.inj_div; reflexivity).
  rewrite Eq.
  pose proof (Nat.div_mod n interval ltac:(lia)) as Hdm.
  pose proof (Nat.mod_upper_bound n interval ltac:(lia)) as Hmb.
  set (q := n / interval) in *. set (r := n mod interval) in *.
  assert (Erem : Z.to_nat (Z.land (Z.of_nat n) (Z.shiftl 1 (Z.of_nat shift) - 1)) = r).
  { rewrite Z.shiftl_1_l. replace (2 ^ Z.of_nat shift - 1)%Z with (Z.ones (Z.of_nat shift)) by (rewrite Z.ones_equiv; lia).
    rewrite Z.land_ones by lia. rewrite Epow. subst r. rewrite <- Nat2Z.inj_mod. apply Nat2Z.id. }
  rewrite Erem, Htt.
  clearbody q r interval. clear Epow Eq E1 E2 Erem Htt Hsh H64.
  assert (Efp : forall p k, forward_pos (mkbody (b_len b) (b_size b) (b_buf b) (b_incomplete b)
     (Some (index_signature (Z.of_nat shift) t :: Z.of_nat (N + 1) :: l))) p k = forward_pos b p k).
  { intros; reflexivity. }
  rewrite (Z.mod_small (Z.of_nat (N + 1))) by (clear - HNfit; lia). clear HNfit.
  destruct (Z.ltb_spec 1 (Z.of_nat q + 1)) as [Hq|Hq].
  - (* q >= 1 *)
    unfold assert.
    destruct (Z.ltb_spec (Z.of_nat q + 1) (Z.of_nat (N + 1))) as [Hlt|Hge'].
    + assert (q <= N - 1) by (clear - Hlt; lia).
      replace (Z.to_nat (Z.of_nat q + 1)) with (S (S (q - 1))) by lia. cbn [nth_error].
      rewrite Eln by lia. cbn [of_opt bind].
      replace (0 + (q - 1 + 1) * interval) with (q * interval) by (replace (q - 1 + 1) with q by (clear - Hq; lia); reflexivity).
      rewrite (Z.mod_small (Z.of_nat (off cs _))) by (pose proof (off_mono cs (q * interval)); split; [apply Nat2Z.is_nonneg|]; eapply Z.le_lt_trans; [apply inj_le; eassumption|exact Hfit]).
      rewrite Nat2Z.id, Efp. erewrite forward_pos_off; eauto; [|lia].
      replace (q * interval + r) with n by lia.
      destruct (Nat.eqb_spec n (length cs)); [|reflexivity].
      destruct (Nat.eqb_spec r 0) as [Hr|Hr]; [|reflexivity]. exfalso.
      assert (interval * q <= interval * (N - 1)) by (apply Nat.mul_le_mono_l; lia).
      rewrite Nat.mul_sub_distr_l in *. lia.
    + (* assertion violated: only when n = length cs and r = 0 *)
      cbn [bind].
      assert (N <= q) by (clear - Hge'; lia). assert (interval * N <= interval * q) by (apply Nat.mul_le_mono_l; lia).
      assert (n = length cs /\ r = 0) as [-> ->] by lia.
      rewrite !Nat.eqb_refl. cbn [andb].
      destruct (Nat.ltb_spec 0 (length cs)); [reflexivity|lia].
  - cbn [bind]. assert (Hq0 : q = 0) by lia. 
    assert (Hnr : n = r) by (rewrite Hq0 in Hdm; lia). 
    change (Z.to_nat 0) with 0. rewrite Efp. change (forward_pos b 0 r) with (forward_pos b (off cs 0) r). erewrite forward_pos_off; eauto; [|lia].
    cbn [plus]. rewrite <- Hnr.
    destruct (Nat.eqb_spec n (length cs)); [|reflexivity].
    destruct (Nat.eqb_spec n 0); [|reflexivity]. cbn [andb].
    destruct (Nat.ltb_spec 0 n); [lia|reflexivity].
Qed.
End IndexLookup.

(** ** [holds] *)
Lemma holds_enc b cs : holds b cs -> exists extra,
  Forall valid_char cs /\ b_buf b = enc cs ++ extra /\ b_size b = length (enc cs) /\
  b_len b = length cs /\ b_incomplete b = false /\ Forall is_byte extra.
Proof.
  intros (bs & extra & He & Hb & Hs & Hl & Hi & Hx & _). apply encodes_all_enc in He as [Hv ->].
  exists extra. auto 10.
Qed.

Definition interval_of (b : body) : nat :=
  let size := Z.of_nat (b_size b) in
  (if size <? 256 then 16%nat else if size <? 8192 then 32%nat else if size <? 65536 then 64%nat
   else if size <? 2 ^ 32 then 128%nat else 256%nat)%Z.

Lemma index2ptr_holds b cs n : holds b cs -> n <= length cs ->
  index2ptr b n =
    if (match b_index b with Some _ => true | None => false end)
       && (n =? length cs) && (n mod (interval_of b) =? 0) && (0 <? n)
    then Panic else Ok (off cs n).
Proof.
  intros (bs & extra & He & Hb & Hs & Hl & Hi & Hx & Hix & Hbig) Hn.
  apply encodes_all_enc in He as [Hv ->].
  destruct Hix as [Hnone|(v & Hsome & Hneed & Hbuild)].
  - rewrite Hnone. unfold index2ptr. rewrite Hnone. cbn [andb].
    change (forward_pos b 0 n) with (forward_pos b (off cs 0) n). erewrite forward_pos_off; eauto.
  - rewrite Hsome. cbn [andb].
    set (b' := mkbody (b_len b) (b_size b) (b_buf b) false None) in *.
    assert (Eb : b = mkbody (b_len b') (b_size b') (b_buf b') (b_incomplete b') (Some v)).
    { destruct b; cbn in *; subst; reflexivity. }
    unfold index_needed in Hneed.
    assert (H64 : 64 <= length (enc cs)).
    { rewrite !andb_true_iff in Hneed. destruct Hneed as [_ H]. apply Nat.leb_le in H. rewrite Hs in H. exact H. }
    clear Hneed.
    unfold build_index_array in Hbuild. unfold interval_of.
    change (b_size b') with (b_size b) in Hbuild.
    assert (Hb' : b_buf b' = enc cs ++ extra) by (cbn; exact Hb).
    assert (Hs' : b_size b' = length (enc cs)) by (cbn; exact Hs).
    assert (Hl' : b_len b' = length cs) by (cbn; exact Hl).
    assert (Hi' : b_incomplete b' = false) by reflexivity.
    assert (HH : forall w t shift, (1 <= shift <= 8) -> (0 <= t < 8)%Z -> (t = 0 \/ t = 1 \/ t = 3 \/ t = 5)%Z ->
      (0 <= w)%Z -> (Z.of_nat (length (enc cs)) < 2 ^ w)%Z ->
      build_array b' w t shift = Ok v ->
      index2ptr b n = if (n =? length cs) && (n mod (2 ^ shift) =? 0) && (0 <? n) then Panic else Ok (off cs n)).
    { intros w t shift A1 A2 A3 A4 A5 A6. rewrite Eb.
      rewrite (build_array_lookup b' cs extra Hv Hb' Hs' Hl' Hi' w t shift v n) by assumption.
      destruct ((n =? length cs) && (n mod 2 ^ shift =? 0)); [|reflexivity]. cbn [andb]. reflexivity. }
    rewrite Hs in *.
    destruct (Z.ltb_spec (Z.of_nat (length (enc cs))) 256).
    { apply HH with (shift := 4) in Hbuild; try lia. exact Hbuild. }
    destruct (Z.ltb_spec (Z.of_nat (length (enc cs))) 8192).
    { apply HH with (shift := 5) in Hbuild; try lia. exact Hbuild. }
    destruct (Z.ltb_spec (Z.of_nat (length (enc cs))) 65536).
    { apply HH with (shift := 6) in Hbuild; try lia. exact Hbuild. }
    destruct (Z.ltb_spec (Z.of_nat (length (enc cs))) (2 ^ 32)).
    { apply HH with (shift := 7) in Hbuild; try lia. exact Hbuild. }
    { apply HH with (shift := 8) in Hbuild; try lia. exact Hbuild. }
Qed.

Lemma enc_split_at cs i c : nth_error cs i = Some c -> 
  exists post, enc cs = enc (firstn i cs) ++ char_put c ++ post.
Proof.
  intros H. apply nth_error_split in H as (l1 & l2 & -> & <-).
  exists (enc l2). rewrite firstn_app, firstn_all, Nat.sub_diag. cbn [firstn]. rewrite app_nil_r, enc_app. reflexivity.
Qed.

Lemma string_ref_holds b cs pos : holds b cs -> 
  string_ref b pos = if ((0 <=? pos) && (pos <? Z.of_nat (length cs)))%Z
                     then match nth_error cs (Z.to_nat pos) with Some c => Ok c | None => UB end
                     else Err.
Proof.
  intros H. destruct (holds_enc b cs H) as (extra & Hv & Hb & Hs & Hl & Hi & Hx).
  unfold string_ref. rewrite Hi, Hl.
  replace ((pos <? 0) || (Z.of_nat (length cs) <=? pos))%Z with (negb ((0 <=? pos) && (pos <? Z.of_nat (length cs)))%Z) by lia.
  destruct ((0 <=? pos) && (pos <? Z.of_nat (length cs)))%Z eqn:E; cbn [negb]; [|reflexivity].
  assert (Hp : Z.to_nat pos < length cs) by lia.
  destruct (nth_error cs (Z.to_nat pos)) as [c|] eqn:En; [|apply nth_error_None in En; lia].
  assert (Hc : valid_char c) by (rewrite Forall_forall in Hv; apply Hv; eapply nth_error_In; eassumption).
  unfold single_byte. rewrite Hs, Hl.
  destruct (Nat.eqb_spec (length (enc cs)) (length cs)) as [Ea|Ea].
  - destruct (ascii_enc cs Hv Ea) as [Eenc _]. rewrite Hb, Eenc, nth_error_app1, En by assumption. reflexivity.
  - rewrite (index2ptr_holds b cs) by (assumption || lia).
    replace (Z.to_nat pos =? length cs) with false by (symmetry; apply Nat.eqb_neq; lia).
    rewrite andb_false_r. cbn [andb bind]. unfold get_at.
    destruct (enc_split_at cs _ c En) as (post & Es).
    rewrite Hb, Es. unfold off. rewrite <- !app_assoc, skipn_app, skipn_all, Nat.sub_diag. cbn [skipn app].
    rewrite char_get_putc by assumption. reflexivity.
Qed.

(** ** count_length on an encoded sequence *)
Lemma count_length_enc cs : forall fuel extra, Forall valid_char cs -> length (enc cs) < fuel ->
  count_length_loop fuel (enc cs ++ extra) (length (enc cs)) = Ok (Some (length cs)).
Proof.
  induction cs as [|c cs IH]; intros fuel extra Hv Hf.
  - destruct fuel; [cbn in Hf; lia|]. reflexivity.
  - destruct fuel as [|fuel]; [lia|]. inversion Hv as [|? ? Hc Hv']; subst.
    destruct (char_put_cons c Hc) as (b & bs & E & Hb & Hn).
    pose proof (char_get_putc c (enc cs ++ extra) Hc) as Hg. rewrite E in Hg.
    unfold enc in *. cbn [map concat] in *. rewrite E in *. cbn [app length] in *. rewrite app_length in *.
    cbn [count_length_loop]. rewrite Hn.
    destruct (Nat.ltb_spec (length bs + length (concat (map char_put cs))) (length bs)); [lia|].
    rewrite <- app_assoc. rewrite Hg.
    replace (length bs + 1) with (S (length bs)) by lia. cbn [skipn].
    rewrite skipn_app, skipn_all, Nat.sub_diag. cbn [skipn app].
    replace (length bs + length (concat (map char_put cs)) - length bs) with (length (concat (map char_put cs))) by lia.
    rewrite IH by (assumption || lia). reflexivity.
Qed.

Lemma skipn_enc cs i extra : i <= length cs -> skipn (off cs i) (enc cs ++ extra) = enc (skipn i cs) ++ extra.
Proof.
  intros Hi. rewrite <- (firstn_skipn i cs) at 2. rewrite enc_app, <- app_assoc.
  unfold off. rewrite skipn_app, skipn_all, Nat.sub_diag. reflexivity.
Qed.

Lemma off_plus cs i n : off cs (i + n) = off cs i + off (skipn i cs) n.
Proof.
  unfold off. rewrite <- app_length, <- enc_app. f_equal. f_equal.
  revert cs; induction i as [|i IH]; intros [|c cs]; cbn; rewrite ?firstn_nil; try reflexivity. f_equal; apply IH.
Qed.

Lemma substring_cursor_holds b cs i j : holds b cs -> i <= j -> j <= length cs ->
  exists b', substring_cursor b (off cs i) (off cs j) = Ok b' /\ holds b' (firstn (j - i) (skipn i cs)) /\ b_index b' = None.
Proof.
  intros H Hij Hj. pose proof H as Hh. destruct (holds_enc b cs H) as (extra & Hv & Hb & Hs & Hl & Hi & Hx).
  destruct Hh as (_ & _ & _ & _ & _ & _ & _ & _ & _ & Hbig). rewrite Hs in Hbig.
  unfold substring_cursor. rewrite Hs.
  pose proof (off_mono cs i) as M1. pose proof (off_mono cs j) as M2.
  assert (Hoff : off cs j = off cs i + off (skipn i cs) (j - i)).
  { rewrite <- off_plus. f_equal. lia. }
  destruct (Nat.ltb_spec (length (enc cs)) (off cs i)); [lia|].
  destruct (Nat.ltb_spec (length (enc cs)) (off cs j)); [lia|].
  destruct (Nat.ltb_spec (off cs j) (off cs i)); [lia|].
  replace (off cs j - off cs i) with (off (skipn i cs) (j - i)) by lia.
  rewrite Hb, skipn_enc by lia. rewrite Hi.
  set (sub := firstn (j - i) (skipn i cs)).
  assert (Hvs : Forall valid_char (skipn i cs)).
  { rewrite <- (firstn_skipn i cs) in Hv. apply Forall_app in Hv. tauto. }
  assert (Hvsub : Forall valid_char sub).
  { rewrite <- (firstn_skipn (j - i) (skipn i cs)) in Hvs. apply Forall_app in Hvs. tauto. }
  assert (Hlsub : length sub = j - i).
  { subst sub. rewrite firstn_length, skipn_length. lia. }
  assert (Hbuf : enc (skipn i cs) ++ extra = enc sub ++ (enc (skipn (j - i) (skipn i cs)) ++ extra)).
  { rewrite app_assoc, <- enc_app. subst sub. rewrite firstn_skipn. reflexivity. }
  assert (Hbytes : Forall is_byte (enc (skipn (j - i) (skipn i cs)) ++ extra)).
  { apply Forall_app. split; [|assumption]. apply enc_bytes.
    rewrite <- (firstn_skipn (j - i) (skipn i cs)) in Hvs. apply Forall_app in Hvs. tauto. }
  rewrite Hbuf.
  assert (Hlen : (if single_byte b then Ok (Some (off (skipn i cs) (j - i)))
     else count_length (enc sub ++ enc (skipn (j - i) (skipn i cs)) ++ extra) (off (skipn i cs) (j - i)))
     = Ok (Some (j - i))).
  { unfold single_byte. rewrite Hs, Hl. destruct (Nat.eqb_spec (length (enc cs)) (length cs)) as [Ea|Ea].
    - rewrite (off_ascii cs i), (off_ascii cs j) in Hoff by (assumption || lia). do 2 f_equal. lia.
    - unfold count_length. change (off (skipn i cs) (j - i)) with (length (enc sub)).
      rewrite count_length_enc by (assumption || lia). rewrite Hlsub. reflexivity. }
  rewrite Hlen. cbn [bind]. change (off (skipn i cs) (j - i)) with (length (enc sub)).
  unfold make_str. pose proof (length_enc_ge sub Hvsub) as Hge.
  destruct (Nat.ltb_spec (length (enc sub)) (j - i)); [lia|].
  eexists. split; [reflexivity|]. split; [|reflexivity].
  exists (enc sub), (enc (skipn (j - i) (skipn i cs)) ++ extra). cbn.
  repeat split; auto. { apply encodes_all_enc; auto. }
  change (length (enc sub)) with (off (skipn i cs) (j - i)). lia.
Qed.

(** The Scheme procedure [substring]. *)
Definition end_lookup_aborts (b : body) (cs : list Z) (i : Z) : bool :=
  (match b_index b with Some _ => true | None => false end)
  && (i =? Z.of_nat (length cs))%Z && (length cs mod interval_of b =? 0) && (0 <? length cs).

Lemma cursor_pointer_holds b cs to_end i : holds b cs -> (0 <= i <= Z.of_nat (length cs))%Z ->
  end_lookup_aborts b cs i = false ->
  cursor_pointer_int b to_end i = Ok (off cs (Z.to_nat i)).
Proof.
  intros H Hi Ha. destruct (holds_enc b cs H) as (extra & Hv & Hb & Hs & Hl & _ & Hx).
  unfold cursor_pointer_int. replace (to_end && (i =? -1)%Z) with false by (destruct to_end; lia).
  rewrite Hl. replace ((i <? 0) || (Z.of_nat (length cs) <? i))%Z with false by lia.
  rewrite (index2ptr_holds b cs) by (assumption || lia).
  unfold end_lookup_aborts in Ha. destruct (b_index b); [|reflexivity]. cbn [andb] in *.
  destruct (Nat.eqb_spec (Z.to_nat i) (length cs)) as [E|E]; [|reflexivity].
  rewrite E. replace (i =? Z.of_nat (length cs))%Z with true in Ha by lia. cbn [andb] in *. rewrite Ha. reflexivity.
Qed.

Lemma scm_substring_holds b cs i j : holds b cs -> (0 <= i <= j)%Z -> (j <= Z.of_nat (length cs))%Z ->
  end_lookup_aborts b cs j = false ->
  exists b', scm_substring b i j = Ok b' /\
    holds b' (firstn (Z.to_nat (j - i)) (skipn (Z.to_nat i) cs)).
Proof.
  intros H Hi Hj Ha. unfold scm_substring.
  assert (Ha' : end_lookup_aborts b cs i = false).
  { unfold end_lookup_aborts in *. destruct (Z.eqb_spec i (Z.of_nat (length cs))) as [E|E].
    - replace j with i in Ha by lia. rewrite E, Z.eqb_refl in Ha. exact Ha.
    - rewrite andb_false_r. reflexivity. }
  rewrite (cursor_pointer_holds b cs) by (assumption || lia). cbn [bind].
  rewrite (cursor_pointer_holds b cs) by (assumption || lia). cbn [bind].
  destruct (substring_cursor_holds b cs (Z.to_nat i) (Z.to_nat j) H) as (b' & E & Hb' & _); [lia|lia|].
  exists b'. split; [exact E|]. replace (Z.to_nat (j - i)) with (Z.to_nat j - Z.to_nat i) by lia. exact Hb'.
Qed.

(** ** append, list->string, build-index *)
Lemma append_holds x y cs ds : holds x cs -> holds y ds ->
  (Z.of_nat (b_size x + b_size y) < 2 ^ 61)%Z ->
  exists z, string_append2 x y = Ok z /\ holds z (cs ++ ds).
Proof.
  intros Hx Hy Hbig.
  destruct (holds_enc x cs Hx) as (ex & Hvx & Hbx & Hsx & Hlx & Hix & Hxx).
  destruct (holds_enc y ds Hy) as (ey & Hvy & Hby & Hsy & Hly & Hiy & Hxy).
  unfold string_append2. rewrite Hsx, Hsy, Hbx, Hby, Hlx, Hly, Hix, Hiy. cbn [orb].
  rewrite !firstn_app, !firstn_all, !Nat.sub_diag. cbn [firstn]. rewrite !app_nil_r.
  unfold make_str. pose proof (length_enc_ge _ Hvx). pose proof (length_enc_ge _ Hvy).
  destruct (Nat.ltb_spec (length (enc cs) + length (enc ds)) (length cs + length ds)); [lia|].
  eexists. split; [reflexivity|]. exists (enc (cs ++ ds)), [0%Z]. cbn.
  rewrite enc_app, !app_length, <- app_assoc.
  repeat split; auto; try lia.
  - rewrite <- enc_app. apply encodes_all_enc. split; [apply Forall_app; auto|reflexivity].
  - repeat constructor; lia.
Qed.

Lemma chars_upto_neg cs : forall len m, (m < 0)%Z -> chars_upto cs len m = cs.
Proof.
  induction cs as [|c cs IH]; intros len m Hm; cbn; [reflexivity|].
  replace (0 <=? m)%Z with false by lia. cbn [andb]. rewrite IH by assumption. reflexivity.
Qed.

Lemma chars_upto_pos cs : forall len m, (len < m)%Z -> (0 <= len)%Z ->
  chars_upto cs len m = firstn (Z.to_nat (m - len)) cs.
Proof.
  induction cs as [|c cs IH]; intros len m Hm Hl; cbn; [rewrite firstn_nil; reflexivity|].
  replace (0 <=? m)%Z with true by lia. cbn [andb].
  destruct (Z.leb_spec m (len + 1)).
  - replace (Z.to_nat (m - len)) with 1 by lia. reflexivity.
  - replace (Z.to_nat (m - len)) with (S (Z.to_nat (m - (len + 1)))) by lia. cbn. rewrite IH by lia. reflexivity.
Qed.

Lemma make_str_enc used : Forall valid_char used -> (Z.of_nat (length (enc used)) < 2 ^ 61)%Z ->
  exists b, make_str (length used) (length (concat (map char_put used)))
     (concat (map char_put used) ++ [0%Z]) false None = Ok b /\ holds b used /\ b_index b = None.
Proof.
  intros Hv Hbig. unfold make_str. pose proof (length_enc_ge _ Hv) as H. unfold enc in *.
  destruct (Nat.ltb_spec (length (concat (map char_put used))) (length used)); [lia|].
  eexists. split; [reflexivity|]. split; [|reflexivity]. exists (enc used), [0%Z]. cbn.
  repeat split; auto. { apply encodes_all_enc; auto. } repeat constructor; lia.
Qed.

(** list->string without an end index. *)
Lemma list_to_string_noend cs start : Forall valid_char cs -> (Z.of_nat (length (enc cs)) < 2 ^ 61)%Z ->
  (0 <= start <= Z.of_nat (length cs))%Z ->
  exists b, list_to_string cs start (-1) = Ok b /\ holds b (skipn (Z.to_nat start) cs).
Proof.
  intros Hv Hbig Hs. unfold list_to_string.
  replace ((start <? 0) || ((0 <=? -1) && (-1 <? start)))%Z with false by lia.
  assert (Hv2 : Forall valid_char (skipn (Z.to_nat start) cs)).
  { rewrite <- (firstn_skipn (Z.to_nat start) cs) in Hv. apply Forall_app in Hv. tauto. }
  assert (Hb2 : (Z.of_nat (length (enc (skipn (Z.to_nat start) cs))) < 2 ^ 61)%Z).
  { pose proof (off_skip cs (Z.to_nat start)). lia. }
  destruct (Z.eqb_spec start 0) as [->|Hn].
  - cbn [bind fst snd]. rewrite chars_upto_neg by lia.
    destruct (make_str_enc cs Hv Hbig) as (b & E & Hb & _). exists b. split; [exact E|exact Hb].
  - unfold list_tail. destruct (Nat.ltb_spec (length cs) (Z.to_nat start)); [lia|].
    cbn [bind fst snd]. rewrite chars_upto_neg by lia.
    destruct (make_str_enc _ Hv2 Hb2) as (b & E & Hb & _). exists b. split; [exact E|exact Hb].
Qed.

(** list->string with 0 < start < end. *)
Lemma list_to_string_range cs start fin : Forall valid_char cs -> (Z.of_nat (length (enc cs)) < 2 ^ 61)%Z ->
  (0 < start < fin)%Z -> (fin <= Z.of_nat (length cs))%Z ->
  exists b, list_to_string cs start fin = Ok b /\
    holds b (firstn (Z.to_nat (fin - start)) (skipn (Z.to_nat start) cs)).
Proof.
  intros Hv Hbig Hs Hf. unfold list_to_string.
  replace ((start <? 0) || ((0 <=? fin) && (fin <? start)))%Z with false by lia.
  replace (start =? 0)%Z with false by lia.
  unfold list_tail. destruct (Nat.ltb_spec (length cs) (Z.to_nat start)); [lia|].
  cbn [bind fst snd]. rewrite chars_upto_pos by lia. rewrite Z.sub_0_r.
  set (sk := skipn (Z.to_nat start) cs).
  assert (Hv2 : Forall valid_char sk).
  { rewrite <- (firstn_skipn (Z.to_nat start) cs) in Hv. apply Forall_app in Hv. tauto. }
  assert (Hv3 : Forall valid_char (firstn (Z.to_nat (fin - start)) sk)).
  { rewrite <- (firstn_skipn (Z.to_nat (fin - start)) sk) in Hv2. apply Forall_app in Hv2. tauto. }
  destruct (make_str_enc _ Hv3) as (b & E & Hb & _).
  { pose proof (off_skip cs (Z.to_nat start)) as O1. pose proof (off_skip sk (Z.to_nat (fin - start))) as O2.
    unfold off in O2. fold sk in O1. lia. }
  exists b. split; [exact E|exact Hb].
Qed.

Lemma build_index_holds b cs : holds b cs -> exists b', string_build_index b = Ok b' /\ holds b' cs.
Proof.
  intros H. pose proof H as Hh. destruct (holds_enc b cs H) as (extra & Hv & Hb & Hs & Hl & Hi & Hx).
  destruct Hh as (bs & extra' & He & Hb' & Hs' & Hl' & Hi' & Hx' & Hix & Hbig).
  unfold string_build_index.
  destruct (index_needed b) eqn:En; cbn [negb orb]; [|exists b; split; [reflexivity|exact H]].
  destruct (b_index b) as [v|] eqn:Ei; [exists b; split; [reflexivity|exact H]|].
  assert (Hok : exists v, build_index_array b = Ok v).
  { unfold build_index_array.
    assert (HH : forall w t shift, exists v, build_array b w t shift = Ok v).
    { intros w t shift. unfold build_array, compute_index_size. rewrite Hl.
      set (iv := 2 ^ shift). set (N := (length cs + iv - 1) / iv).
      assert (Hiv : 1 <= iv) by (subst iv; pose proof (Nat.pow_nonzero 2 shift); lia).
      assert (HN : (N + 1 - 2) * iv <= length cs).
      { subst N. pose proof (Nat.div_mod (length cs + iv - 1) iv ltac:(lia)) as D.
        set (N := (length cs + iv - 1) / iv) in *.
        replace (N + 1 - 2) with (N - 1) by (clear; lia). rewrite Nat.mul_sub_distr_r. rewrite (Nat.mul_comm N). lia. }
      destruct (build_entries_ok b cs extra iv w Hv Hb Hs Hl Hi (N + 1 - 2) 0 HN) as (l & El & _).
      rewrite off_0 in El. rewrite El. cbn [bind]. eexists; reflexivity. }
    repeat match goal with |- context [if ?a then _ else _] => destruct a end; apply HH. }
  destruct Hok as (v & Ev). rewrite Ev. cbn [bind]. eexists. split; [reflexivity|].
  exists bs, extra'. cbn. repeat split; auto. right. exists v. split; [reflexivity|].
  split; [exact En|].
  rewrite <- Ev. f_equal. destruct b; cbn in *; subst; reflexivity.
Qed.

(** ** Backward stepping *)
Lemma tail_nfollows n c b : In b (tail_bytes n c) -> nfollows b = 0%Z.
Proof.
  induction n as [|n IH]; cbn [tail_bytes In]; [tauto|]. intros [<-|H]; [|auto].
  pose proof (Z.mod_pos_bound (c / 64 ^ Z.of_nat n) 64 ltac:(lia)) as Hb.
  rewrite nfollows_rows by (unfold is_byte; lia). unfold nfollows_spec.
  destruct (Z.ltb_spec (128 + (c / 64 ^ Z.of_nat n) mod 64) 0xc0); [reflexivity|lia].
Qed.

Lemma char_put_follow c i b : valid_char c -> nth_error (char_put c) i = Some b ->
  (nfollows b + 1 <= Z.of_nat (length (char_put c) - i))%Z.
Proof.
  intros Hc H. destruct i as [|i].
  - destruct (char_put_cons c Hc) as (b0 & bs & E & Hb & Hn). rewrite E in *. cbn in H. inversion H; subst.
    rewrite nfollows_rows in * by assumption. unfold nfollows_spec in *. cbn [length]. 
    repeat match goal with |- context [if ?a then _ else _] => destruct a end; lia.
  - assert (i < length (char_put c)) by (assert (S i < length (char_put c)) by (apply nth_error_Some; congruence); lia).
    assert (S i < length (char_put c)) by (apply nth_error_Some; congruence).
    rewrite char_put_putc, putc_row in H by (assumption || unfold valid_char in Hc; lia).
    unfold row_encode in H. cbn [nth_error] in H. apply nth_error_In in H.
    rewrite (tail_nfollows _ _ _ H). lia.
Qed.

Lemma enc_follow cs : forall i b, Forall valid_char cs -> nth_error (enc cs) i = Some b ->
  (nfollows b + 1 <= Z.of_nat (length (enc cs) - i))%Z.
Proof.
  induction cs as [|c cs IH]; intros i b Hv H; [destruct i; discriminate|].
  inversion Hv as [|? ? Hc Hv']; subst. unfold enc in *. cbn [map concat] in *. rewrite app_length.
  destruct (Nat.lt_ge_cases i (length (char_put c))) as [Hi|Hi].
  - rewrite nth_error_app1 in H by assumption. apply char_put_follow in H; [|assumption]. lia.
  - rewrite nth_error_app2 in H by assumption. apply IH in H; [|assumption]. lia.
Qed.

Lemma backward_from_spec pre c extra : Forall valid_char pre -> valid_char c ->
  forall k, length (char_put c) <= k -> k <= length (enc pre) + length (char_put c) ->
  backward_from (enc pre ++ char_put c ++ extra) (Z.of_nat (length (enc pre) + length (char_put c))) k
    = Back (length (enc pre)).
Proof.
  intros Hv Hc. destruct (char_put_cons c Hc) as (b0 & bs & E & Hb & Hn).
  assert (Hnb : nfollows b0 = Z.of_nat (length bs)).
  { destruct (nfollows_putc c Hc) as (b1 & bs1 & E1 & _ & Hn1 & _).
    rewrite char_put_putc in E by (unfold valid_char in Hc; lia). rewrite E in E1. inversion E1; subst. exact Hn1. }
  induction k as [|k IH]; intros Hk1 Hk2.
  - rewrite E in Hk1. cbn in Hk1. lia.
  - cbn [backward_from]. unfold byte_at.
    replace (Z.of_nat (length (enc pre) + length (char_put c)) - Z.of_nat (S k) <? 0)%Z with false by lia.
    replace (Z.to_nat (Z.of_nat (length (enc pre) + length (char_put c)) - Z.of_nat (S k)))
      with (length (enc pre) + length (char_put c) - S k) by lia.
    destruct (Nat.eq_dec (S k) (length (char_put c))) as [Ek|Ek].
    + replace (length (enc pre) + length (char_put c) - S k) with (length (enc pre)) by lia.
      rewrite nth_error_app2, Nat.sub_diag, E by lia. cbn [app nth_error].
      replace (nfollows b0 =? Z.of_nat k)%Z with true; [reflexivity|].
      rewrite E in Ek. cbn [length] in Ek. lia.
    + set (i := length (enc pre) + length (char_put c) - S k) in *.
      assert (Hi : i < length (enc pre)) by lia.
      rewrite nth_error_app1 by assumption.
      destruct (nth_error (enc pre) i) as [b|] eqn:Eb; [|apply nth_error_None in Eb; lia].
      apply enc_follow in Eb; [|assumption].
      replace (nfollows b =? Z.of_nat k)%Z with false.
      * apply IH; lia.
      * symmetry. apply Z.eqb_neq. assert (1 <= length (char_put c)) by (rewrite E; cbn; lia). subst i. lia.
Qed.

Lemma backward_enc pre c extra : Forall valid_char pre -> valid_char c ->
  char_backward (enc pre ++ char_put c ++ extra) (length (enc pre) + length (char_put c)) = Back (length (enc pre)).
Proof.
  intros Hv Hc. unfold char_backward.
  assert (H6 : 1 <= length (char_put c) <= 6).
  { pose proof (putc_length c Hc) as H. rewrite char_put_putc by (unfold valid_char in Hc; lia).
    unfold nbytes in H. repeat match type of H with context [if ?a then _ else _] => destruct a end; lia. }
  apply backward_from_spec; [assumption|assumption| |];
    destruct (length (enc pre) + length (char_put c)) as [|[|[|[|[|[|n]]]]]]  eqn:E; lia.
Qed.
