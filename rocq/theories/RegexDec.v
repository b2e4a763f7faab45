(** A piece of code decides a predicate on positions: started at a position it succeeds if the predicate holds there and
    fails, leaving the submatches as they should be, if it does not. *)
From Coq Require Import List ZArith Bool Lia.
From Verif Require Import Utf8Model Utf8Spec Utf8Proofs StringProofs SearchProofs2 RegexModel RegexSpec RegexVm.
Import ListNotations.
Local Open Scope nat_scope.
Ltac Zify.zify_post_hook ::= idtac.

Section Dec.
Variables (c : ctx) (w extra : list Z).
Hypothesis HT : textok c w extra.
Notation wv := (wv c w extra HT).
Notation hbuf := (hbuf c w extra HT).
Notation hstop := (hstop c w extra HT).
Notation pos i := (off w i).
Notation seg := (seg c).
Notation runs := (runs c).
Definition keeps (O : list (nat * nat)) (m m' : caps) : Prop :=
  (forall g, fst (m' g) = fst (m g)) /\ (forall g, ~ In g (map fst O) -> m' g = m g).
Lemma keeps_refl O m : keeps O m m. Proof. split; auto. Qed.
Lemma keeps_trans O a b d : keeps O a b -> keeps O b d -> keeps O a d.
Proof. intros (A & B) (C & D). split; intros; [rewrite C|rewrite D by assumption]; auto. Qed.
Definition fails (O : list (nat * nat)) (pc i : nat) : Prop := forall m, exists m', runs pc (pos i) m (Ret m') /\ keeps O m m'.
Definition invk (Inv : list (nat * nat) -> nat -> caps -> Prop) : Prop :=
  (forall O i m m', Inv O i m -> keeps O m m' -> Inv O i m') /\ forall O i j m, i <= j -> Inv O i m -> Inv O j m.
Definition wins (Inv : list (nat * nat) -> nat -> caps -> Prop) (Q : caps -> Prop) O pc i : Prop :=
  forall m, Inv O i m -> exists q m', runs pc (pos i) m (Jmp q m') /\ Q m'.
Definition decides Inv Q O pc (W : nat -> Prop) i : Prop := (wins Inv Q O pc i /\ W i) \/ (fails O pc i /\ ~ W i).
Lemma dec_iff Inv Q O pc W W' i : (W i <-> W' i) -> decides Inv Q O pc W i -> decides Inv Q O pc W' i.
Proof. unfold decides. tauto. Qed.
Lemma dec_atom Inv Q O pc pc' o l (R : nat -> Prop) W i : seg pc (OP o :: l) -> plain o = true ->
  ((exists j, R j /\ (forall j', R j' -> j' = j) /\ exec1 c o (S pc) (pos i) = Go pc' (pos j)) \/ ((forall j, ~ R j) /\ exec1 c o (S pc) (pos i) = Fail)) ->
  invk Inv -> (forall j, R j -> i <= j) ->
  (forall j, R j -> decides Inv Q O pc' W j) -> decides Inv Q O pc (fun _ => exists j, R j /\ W j) i.
Proof.
  intros S P X0 K Hle D. destruct X0 as [(j & Rj & U & E)|(N & E)].
  - destruct (D j Rj) as [(A & B)|(A & B)].
    + left. split; [|eauto]. intros m I. destruct (A m (proj2 K O i j m (Hle j Rj) I)) as (q & m' & R1 & Hq). exists q, m'. split; [|exact Hq]. eapply runs_go; eauto.
    + right. split; [|intros (j' & R' & W'); apply U in R'; subst; auto]. intros m. destruct (A m) as (m' & R1 & K'). exists m'. split; [|exact K']. eapply runs_go; eauto.
  - right. split; [|intros (j & Rj & _); eapply N; eauto]. intros m. exists m. split; [eapply runs_fail; eauto|apply keeps_refl].
Qed.
Lemma dec_try Inv Q O pc t l W1 W2 i : invk Inv -> seg pc (OP O_TRY :: Off t :: l) -> decides Inv Q O (pc + 3) W1 i -> decides Inv Q O t W2 i ->
  decides Inv Q O pc (fun i => W1 i \/ W2 i) i.
Proof.
  intros K S [(A & B)|(A & B)] D.
  - left. split; [|auto]. intros m I. destruct (A m I) as (q & m' & R & Hq). exists q, m'. split; [|exact Hq]. eapply runs_try_l; eauto.
  - destruct D as [(A' & B')|(A' & B')].
    + left. split; [|auto]. intros m I. destruct (A m) as (m1 & R1 & K1). destruct (A' m1) as (q & m' & R & Hq); [eapply (proj1 K); eauto|].
      exists q, m'. split; [|exact Hq]. eapply runs_try_r; eauto.
    + right. split; [|tauto]. intros m. destruct (A m) as (m1 & R1 & K1). destruct (A' m1) as (m' & R & K2).
      exists m'. split; [eapply runs_try_r; eauto|eapply keeps_trans; eauto].
Qed.
Lemma dec_jump Inv Q O pc t l W i : seg pc (OP O_JUMP :: Off t :: l) -> decides Inv Q O t W i -> decides Inv Q O pc W i.
Proof.
  intros S [(A & B)|(A & B)].
  - left. split; [|auto]. intros m I. destruct (A m I) as (q & m' & R & Hq). exists q, m'. split; [|exact Hq]. eapply runs_jump; eauto.
  - right. split; [|auto]. intros m. destruct (A m) as (m' & R & K). exists m'. split; [|exact K]. eapply runs_jump; eauto.
Qed.
Lemma dec_begin (Inv : list (nat * nat) -> nat -> caps -> Prop) Q O pc g l W i : g < 256 -> seg pc (OP O_BEGIN :: B (Z.of_nat g) :: l) ->
  (forall m, Inv O i m -> Inv ((g, i) :: O) i (set_start m g (pos i))) -> decides Inv Q ((g, i) :: O) (pc + 2) W i -> decides Inv Q O pc W i.
Proof.
  intros G S C [(A & B)|(A & B)].
  - left. split; [|auto]. intros m I. destruct (A _ (C m I)) as (q & m' & R & Hq). exists q, m'. split; [|exact Hq]. eapply runs_begin_l; eauto.
  - right. split; [|auto]. intros m. destruct (A (set_start m g (pos i))) as (m' & R & K1 & K2). exists (set_both m' g (m g)).
    split; [eapply runs_begin_r; eauto|]. unfold set_both, set_start in *. split; intros h; specialize (K1 h); specialize (K2 h); destruct (Nat.eqb_spec h g) as [E|N].
    + subst. reflexivity.
    + exact K1.
    + subst. reflexivity.
    + intros Hh. apply K2. cbn [map fst]. intros [E|E]; [congruence|auto].
Qed.
Lemma dec_end (Inv : list (nat * nat) -> nat -> caps -> Prop) Q O s pc g l W i : g < 256 -> seg pc (OP O_END :: B (Z.of_nat g) :: l) ->
  (forall m, Inv ((g, s) :: O) i m -> Inv O i (set_end m g (pos i))) -> decides Inv Q O (pc + 2) W i -> decides Inv Q ((g, s) :: O) pc W i.
Proof.
  intros G S C [(A & B)|(A & B)].
  - left. split; [|auto]. intros m I. destruct (A _ (C m I)) as (q & m' & R & Hq). exists q, m'. split; [|exact Hq]. eapply runs_end; eauto.
  - right. split; [|auto]. intros m. destruct (A (set_end m g (pos i))) as (m' & R & K1 & K2). exists m'.
    split; [eapply runs_end; eauto|]. unfold set_end in *. split; intros h; specialize (K1 h); specialize (K2 h); destruct (Nat.eqb_spec h g) as [E|N].
    + subst. exact K1.
    + exact K1.
    + intros X. exfalso. apply X. left. subst. reflexivity.
    + intros X. apply K2. intros Y. apply X. right. exact Y.
Qed.
Definition inv0 (m0 : caps) : list (nat * nat) -> nat -> caps -> Prop := fun O _ m => O = [] /\ forall g, m g = m0 g.
Lemma inv0_k m0 : invk (inv0 m0).
Proof. split; [|intros ? ? ? ? _ X; exact X]. intros O i m m' (-> & E) (_ & K). split; auto. intros g. rewrite K, E; auto. Qed.
Lemma dec_look Inv Q O (neg : bool) pc t l (P W : nat -> Prop) i : invk Inv -> seg pc (OP (if neg then O_NASSERT else O_ASSERT) :: Off t :: l) ->
  (forall m0, decides (inv0 m0) (fun m => forall g, m g = m0 g) [] (pc + 3) P i) -> ((if neg then ~ P i else P i) -> decides Inv Q O t W i) ->
  decides Inv Q O pc (fun i => (if neg then ~ P i else P i) /\ W i) i.
Proof.
  intros K S D0 D.
  assert (keq : forall O m m', (forall g : nat, m' g = m g) -> keeps O m m') by (intros; split; intros; congruence).
  destruct (D0 (fun _ => (None, None))) as [(_ & Pi)|(F & Pi)].
  - assert (Wn : forall m, exists q m', runs (pc + 3) (pos i) m (Jmp q m') /\ forall g, m' g = m g).
    { intros m. destruct (D0 m) as [(A & _)|(_ & N)]; [|contradiction]. apply (A m). split; auto. }
    destruct neg.
    + right. split; [|tauto]. intros m. destruct (Wn m) as (q & m' & R & E). exists m'. split; [|apply keq, E]. eapply runs_nassert_l; eauto.
    + destruct (D Pi) as [(A & B)|(A & B)].
      * left. split; [|auto]. intros m I. destruct (Wn m) as (q & m1 & R & E). destruct (A m1) as (q' & m' & R' & Hq); [eapply (proj1 K); [exact I|apply keq, E]|].
        exists q', m'. split; [|exact Hq]. eapply runs_assert_l; eauto.
      * right. split; [|tauto]. intros m. destruct (Wn m) as (q & m1 & R & E). destruct (A m1) as (m' & R' & K'). exists m'.
        split; [eapply runs_assert_l; eauto|]. eapply keeps_trans; [apply keq, E|exact K'].
  - assert (Fm : forall m, exists m', runs (pc + 3) (pos i) m (Ret m') /\ forall g, m' g = m g).
    { intros m. destruct (F m) as (m' & R & _ & K'). exists m'. split; [exact R|]. intros g. apply K'. auto. }
    destruct neg.
    + destruct (D Pi) as [(A & B)|(A & B)].
      * left. split; [|auto]. intros m I. destruct (Fm m) as (m1 & R & E). destruct (A m1) as (q' & m' & R' & Hq); [eapply (proj1 K); [exact I|apply keq, E]|].
        exists q', m'. split; [|exact Hq]. eapply runs_nassert_r; eauto.
      * right. split; [|tauto]. intros m. destruct (Fm m) as (m1 & R & E). destruct (A m1) as (m' & R' & K'). exists m'.
        split; [eapply runs_nassert_r; eauto|]. eapply keeps_trans; [apply keq, E|exact K'].
    + right. split; [|tauto]. intros m. destruct (Fm m) as (m1 & R & E). exists m1. split; [eapply runs_assert_r; eauto|apply keq, E].
Qed.

(** runs of characters *)
Definition mrun (r : list Z) (i j : nat) : Prop := firstn (length r) (skipn i w) = r /\ j = i + length r.
Lemma mrun_bound r i j : i <= length w -> mrun r i j -> j <= length w.
Proof.
  intros H (E & ->). apply (f_equal (@length Z)) in E. rewrite firstn_length, skipn_length in E. lia.
Qed.
Lemma mrun_nil i j : mrun [] i j <-> j = i.
Proof. unfold mrun. cbn. intuition lia. Qed.
Lemma skipn_add {A} (l : list A) a b : skipn (a + b) l = skipn b (skipn a l).
Proof. revert a. induction l as [|x l IH]; intros [|a]; cbn; rewrite ?skipn_nil; auto. Qed.
Lemma mrun_one ch i j : mrun [ch] i j <-> at_ w i ch /\ j = S i.
Proof.
  unfold mrun, at_. cbn [length]. destruct (nth_error w i) as [d|] eqn:E.
  - rewrite (skipn_nth w i d) by assumption. cbn [firstn]. intuition (try congruence; try lia).
  - apply nth_error_None in E. rewrite skipn_all2 by lia. cbn. intuition discriminate.
Qed.
Lemma mrun_app a b i j : mrun (a ++ b) i j <-> exists h, mrun a i h /\ mrun b h j.
Proof.
  unfold mrun. rewrite app_length. split.
  - intros (E & ->). exists (i + length a). rewrite skipn_add.
    assert (Ea : firstn (length a) (skipn i w) = a).
    { apply (f_equal (firstn (length a))) in E. rewrite firstn_firstn, firstn_app, firstn_all, Nat.sub_diag in E. cbn [firstn] in E.
      rewrite app_nil_r in E. rewrite <- E at 2. f_equal. lia. }
    repeat split; [exact Ea| |lia].
    rewrite <- (firstn_skipn (length a) (skipn i w)), Ea, firstn_app in E.
    replace (length a + length b - length a) with (length b) in E by lia. rewrite firstn_all2 in E by lia. apply app_inv_head in E. exact E.
  - intros (h & (E & ->) & (E' & ->)). rewrite skipn_add in E'. split; [|lia].
    rewrite <- (firstn_skipn (length a) (skipn i w)), E, firstn_app.
    replace (length a + length b - length a) with (length b) by lia. rewrite firstn_all2 by lia. rewrite E'. reflexivity.
Qed.
Lemma match_bytes_spec n : forall pc p, match_bytes c pc p n = true <-> forall k, k < n -> arg c (pc + k) = byte c (p + k).
Proof.
  induction n as [|n IH]; intros pc p; cbn [match_bytes]; [split; [intros; lia|auto]|].
  rewrite andb_true_iff, IH, Z.eqb_eq. split.
  - intros (E & F) [|k] Hk; [rewrite !Nat.add_0_r; exact E|]. specialize (F k). rewrite !Nat.add_succ_r. apply F. lia.
  - intros F. split; [specialize (F 0); rewrite !Nat.add_0_r in F; apply F; lia|]. intros k Hk. specialize (F (S k)). rewrite !Nat.add_succ_r in F. apply F. lia.
Qed.
Lemma byte_off p k : byte c (p + k) = nth k (skipn p (buf c)) (-1)%Z.
Proof.
  unfold byte. destruct (le_lt_dec p (length (buf c))) as [L|L].
  - rewrite <- (firstn_skipn p (buf c)) at 1. rewrite app_nth2; rewrite firstn_length; [f_equal; lia|lia].
  - rewrite skipn_all2 by lia. rewrite !nth_overflow; cbn; auto; lia.
Qed.
(** the bytes of r stand at the position of character i, inside the text, iff the characters do *)
Lemma enc_prefix r i : Forall valid_char r -> i <= length w ->
  (mrun r i (i + length r) <-> length (enc r) <= stop c - pos i /\ forall k, k < length (enc r) -> nth k (enc r) (-1)%Z = byte c (pos i + k)).
Proof.
  intros Hr Hi. assert (Hs : stop c - pos i = length (enc (skipn i w))). { rewrite hstop. pose proof (off_skip w i). lia. }
  rewrite Hs. assert (Hbyte : forall k, k < length (enc (skipn i w)) -> byte c (pos i + k) = nth k (enc (skipn i w)) (-1)%Z).
  { intros k Hk. rewrite byte_off, hbuf, skipn_enc by assumption. rewrite app_nth1 by assumption. reflexivity. }
  split.
  - intros (E & _). assert (EE : enc (skipn i w) = enc r ++ enc (skipn (length r) (skipn i w))).
    { rewrite <- enc_app. f_equal. rewrite <- E at 1. symmetry. apply firstn_skipn. }
    split; [rewrite EE, app_length; lia|]. intros k Hk. rewrite Hbyte by (rewrite EE, app_length; lia). rewrite EE, app_nth1 by assumption. reflexivity.
  - intros (L & F). destruct (prefix_align r (skipn i w) (skipn (length (enc r)) (enc (skipn i w)))) as (q & Eq & _).
    + apply Forall_forall. intros x Hx. pose proof wv as V. rewrite Forall_forall in V. apply V. rewrite <- (firstn_skipn i w). apply in_or_app. right. exact Hx.
    + exact Hr.
    + rewrite <- (firstn_skipn (length (enc r)) (enc (skipn i w))) at 1. f_equal.
      apply (nth_ext _ _ (-1)%Z (-1)%Z); [rewrite firstn_length; lia|]. rewrite firstn_length. intros k Hk.
      rewrite F by lia. rewrite Hbyte by lia. rewrite <- (firstn_skipn (length (enc r)) (enc (skipn i w))) at 2.
      rewrite app_nth1; [reflexivity|rewrite firstn_length; lia].
    + split; [|reflexivity]. rewrite Eq, firstn_app, firstn_all, Nat.sub_diag. cbn [firstn]. apply app_nil_r.
Qed.
Lemma pos_run r i j : mrun r i j -> i <= length w -> pos j = pos i + length (enc r).
Proof.
  intros (E & ->) Hi. rewrite off_plus. unfold off at 2. rewrite E. reflexivity.
Qed.
Lemma flat_enc r : flat_map char_put r = enc r. Proof. unfold enc. apply flat_map_concat_map. Qed.
Lemma emit_run_dec Inv Q O pc r W i : invk Inv -> Forall valid_char r -> length (enc r) < 256 -> i <= length w ->
  seg pc (emit_run false r) -> (forall j, mrun r i j -> decides Inv Q O (pc + size (emit_run false r)) W j) ->
  decides Inv Q O pc (fun i => exists j, mrun r i j /\ W j) i.
Proof.
  intros K Hr Hl Hi S D. destruct r as [|ch r].
  - cbn in D. rewrite Nat.add_0_r in D. eapply dec_iff; [|apply (D i); apply mrun_nil; reflexivity].
    split; [intros; exists i; split; [apply mrun_nil; reflexivity|auto]|]. intros (j & E & H). apply mrun_nil in E. subst. exact H.
  - remember (ch :: r) as cr. assert (E : emit_run false cr = if Nat.eqb (length (enc cr)) 1 then [OP O_MATCH1; B ch] else OP O_MATCH :: B (Z.of_nat (length (enc cr))) :: map B (enc cr)).
    { subst cr. unfold emit_run. rewrite flat_enc. reflexivity. }
    rewrite E in S, D. clear E.
    assert (U : forall j, mrun cr i j -> j = i + length cr) by (intros j (_ & H); exact H).
    pose proof (enc_prefix cr i Hr Hi) as Hp. pose proof (off_mono w i) as Ho. 
    assert (Hps : pos i <= stop c) by (rewrite hstop; lia).
    destruct (Nat.eqb_spec (length (enc cr)) 1) as [E1|E1].
    + assert (Hone : enc cr = [ch] /\ is_byte ch).
      { subst cr. rewrite enc_cons in *. apply Forall_inv in Hr as Hch. destruct (char_put_cons ch Hch) as (b & bs & Eb & Hb & _). rewrite app_length, Eb in E1. cbn [length] in E1.
        destruct (lead_byte ch Hch) as [(L & P)|(_ & _ & L)]; [|rewrite Eb in L; cbn [length] in L; lia].
        rewrite P in *. destruct (enc r); [|cbn in E1; lia]. unfold valid_char in Hch. unfold is_byte. split; [reflexivity|]. lia. }
      destruct Hone as (Hone & Hb). rewrite Hone in Hp.
      eapply dec_atom with (R := mrun cr i); [exact S|reflexivity| |exact K|intros j0 (_ & ->); lia|exact D].
      apply seg_B in S as (_ & S). apply seg_arg in S. cbn [exec1]. rewrite S. unfold u8. rewrite Z.mod_small by exact Hb.
      destruct (Nat.eqb_spec (stop c) (pos i)) as [Es|Es].
      { right. split; [|reflexivity]. intros j Hj. pose proof (U j Hj). subst j. apply Hp in Hj as (L & _). cbn [length] in L. lia. }
      destruct (Z.eqb_spec ch (byte c (pos i))) as [Eb|Eb].
      * left. assert (M : mrun cr i (i + length cr)). { apply Hp. cbn [length]. split; [lia|]. intros k Hk. replace k with 0 by lia. rewrite Nat.add_0_r. exact Eb. }
        exists (i + length cr). split; [exact M|]. split; [exact U|]. rewrite (pos_run cr i _ M Hi). rewrite E1. f_equal; [cbn; lia|lia].
      * right. split; [|reflexivity]. intros j Hj. pose proof (U j Hj). subst j. apply Hp in Hj as (_ & F). apply Eb. specialize (F 0). rewrite Nat.add_0_r in F. apply F. cbn; lia.
    + eapply dec_atom with (R := mrun cr i); [exact S|reflexivity| |exact K|intros j0 (_ & ->); lia|exact D].
      apply seg_B in S as (_ & S). pose proof (seg_arg _ _ _ _ S) as Sa. apply seg_B in S as (_ & S). cbn [exec1]. rewrite Sa. unfold u8. rewrite Z.mod_small by lia. rewrite Nat2Z.id.
      assert (Fb : forall k, k < length (enc cr) -> arg c (Datatypes.S (Datatypes.S pc) + k) = nth k (enc cr) (-1)%Z).
      { intros k Hk. eapply seg_bytes; [apply enc_bytes; exact Hr| |exact Hk]. rewrite app_nil_r. exact S. }
      destruct (Z.ltb_spec (Z.of_nat (stop c) - Z.of_nat (pos i)) (Z.of_nat (length (enc cr)))) as [L|L].
      { right. split; [|reflexivity]. intros j Hj. pose proof (U j Hj). subst j. apply Hp in Hj as (L' & _). lia. }
      destruct (match_bytes c (Datatypes.S (Datatypes.S pc)) (pos i) (length (enc cr))) eqn:Em.
      * left. exists (i + length cr). assert (M : mrun cr i (i + length cr)).
        { apply Hp. split; [lia|]. intros k Hk. rewrite <- Fb by assumption. rewrite match_bytes_spec in Em. apply Em. exact Hk. }
        split; [exact M|]. split; [exact U|]. rewrite (pos_run cr i _ M Hi). f_equal. rewrite !size_cons, size_map_B. cbn [isize OP]. lia.
      * right. split; [|reflexivity]. intros j Hj. pose proof (U j Hj). subst j. apply Hp in Hj as (_ & F).
        enough (match_bytes c (Datatypes.S (Datatypes.S pc)) (pos i) (length (enc cr)) = true) by congruence. apply match_bytes_spec. intros k Hk. rewrite Fb by assumption. apply F. exact Hk.
Qed.
End Dec.
