(** The instructions for one character, the assertions and the loops without backtracking. *)
From Coq Require Import List ZArith Bool Lia.
From Verif Require Import Utf8Model Utf8Spec Utf8Proofs StringProofs SearchProofs2 RegexModel RegexSpec RegexScope RegexVm RegexDec.
Import ListNotations.
Local Open Scope nat_scope.
Ltac Zify.zify_post_hook ::= idtac.
Lemma contains_spec s ch : contains s ch = true <-> in_ranges (ranges s) ch.
Proof.
  unfold contains, in_ranges. rewrite existsb_exists. split.
  - intros ((lo, hi) & I & H). apply andb_true_iff in H as (A & B). apply Z.leb_le in A, B. exists lo, hi. auto.
  - intros (lo & hi & I & A & B). exists (lo, hi). split; auto. apply Z.leb_le in A, B. rewrite A, B. reflexivity.
Qed.
Lemma set_ok_small s ch : set_ok s = true -> large s = false -> contains s ch = true -> (ch < 128)%Z.
Proof.
  unfold set_ok. intros H E C. rewrite E in H. cbn in H. rewrite contains_spec in C. destruct C as (lo & hi & I & A).
  rewrite forallb_forall in H. apply H in I. apply Z.ltb_lt in I. lia.
Qed.
Section Atom.
Variables (c : ctx) (w extra : list Z).
Hypothesis HT : textok c w extra.
Notation pos i := (off w i).
Notation M := (mt w (sets c) (multi c)).
Definition atom_dec (o : op) (pc pc' : nat) (R : nat -> Prop) (i : nat) : Prop :=
  (exists j, R j /\ (forall j', R j' -> j' = j) /\ exec1 c o (S pc) (pos i) = Go pc' (pos j)) \/ ((forall j, ~ R j) /\ exec1 c o (S pc) (pos i) = Fail).
Lemma cases i : i <= length w -> (i = length w /\ forall ch, ~ at_ w i ch) \/ exists ch, at_ w i ch /\ i < length w /\ valid_char ch.
Proof.
  intros H. destruct (Nat.eq_dec i (length w)) as [E|E].
  - left. split; [exact E|]. intros ch A. apply at_lt in A. lia.
  - right. destruct (at_ex w i) as (ch & A); [lia|]. exists ch. split; [exact A|]. split; [lia|]. eapply at_valid; eauto.
Qed.
Lemma argset_u8 pc k l : k < 256 -> seg c pc (B (Z.of_nat k) :: l) -> argset c pc = getset (sets c) k.
Proof. intros H S. unfold argset. rewrite (seg_arg _ _ _ _ S). unfold u8. rewrite Z.mod_small, Nat2Z.id by lia. reflexivity. Qed.
Ltac eqb_len := match goal with |- context [Nat.eqb ?i (length w)] => destruct (Nat.eqb_spec i (length w)); try (exfalso; lia) end.
Ltac stopcase := rewrite (eqb_stop c w extra HT) by lia; eqb_len.
Lemma one_step i ch pc' : at_ w i ch -> Go pc' (pos i + length (char_put ch)) = Go pc' (pos (S i)).
Proof. intros A. rewrite (pos_S w i ch) by assumption. reflexivity. Qed.
Lemma any_atom pc i : i <= length w -> atom_dec O_ANY pc (S pc) (M Any i) i.
Proof.
  intros Hi. unfold atom_dec. cbn [exec1 mt]. destruct (cases i Hi) as [(E & N)|(ch & A & L & V)]; stopcase.
  - right. split; [|reflexivity]. intros j (ch & A & _). eapply N; eauto.
  - left. exists (S i). split; [eauto|]. split; [intros j' (? & _ & E); exact E|].
    rewrite (step_at c w extra HT i ch A). apply one_step, A.
Qed.
Lemma byte_ascii i ch : at_ w i ch -> ((ch < 128)%Z /\ byte c (pos i) = ch /\ length (char_put ch) = 1) \/ ((128 <= ch)%Z /\ (128 <= byte c (pos i))%Z).
Proof.
  intros A. rewrite (byte_at c w extra HT i ch A). destruct (lead_byte ch (at_valid c w extra HT i ch A)) as [(L & E)|(L & E & _)]; [left|right]; auto.
  rewrite E. auto.
Qed.
Lemma set_atom pc k l i : k < 256 -> set_ok (getset (sets c) k) = true -> seg c (S pc) (B (Z.of_nat k) :: l) -> i <= length w ->
  atom_dec (if large (getset (sets c) k) then O_SET else O_SET1) pc (pc + 2) (M (CSet k) i) i.
Proof.
  intros Hk Ho S Hi. unfold atom_dec. cbn [mt]. replace (pc + 2) with (Datatypes.S (Datatypes.S pc)) by lia. pose proof (argset_u8 _ _ _ Hk S) as Ea. unfold in_class.
  destruct (large (getset (sets c) k)) eqn:El; cbn [exec1]; rewrite Ea; (destruct (cases i Hi) as [(E & N)|(ch & A & L & V)]; stopcase;
    [right; split; [intros j (ch & A & _); eapply N; eauto|reflexivity]|]).
  - rewrite (get_at c w extra HT i ch A). cbn [charn]. rewrite (nbytes_len ch V).
    destruct (contains (getset (sets c) k) ch) eqn:Ec.
    + left. exists (Datatypes.S i). split; [exists ch; rewrite <- contains_spec; auto|]. split; [intros j' (? & _ & _ & E); exact E|]. apply one_step, A.
    + right. split; [|reflexivity]. intros j (ch' & A' & C & _). rewrite (at_fun _ _ _ _ A' A) in C. rewrite <- contains_spec in C. congruence.
  - destruct (byte_ascii i ch A) as [(L1 & -> & L2)|(L1 & L2)].
    + replace (128 <=? ch)%Z with false by (symmetry; apply Z.leb_gt; lia). destruct (contains (getset (sets c) k) ch) eqn:Ec.
      * left. exists (Datatypes.S i). split; [exists ch; rewrite <- contains_spec; auto|]. split; [intros j' (? & _ & _ & E); exact E|].
        rewrite (pos_S w i ch A), L2. f_equal. lia.
      * right. split; [|reflexivity]. intros j (ch' & A' & C & _). rewrite (at_fun _ _ _ _ A' A) in C. rewrite <- contains_spec in C. congruence.
    + replace (128 <=? byte c (pos i))%Z with true by (symmetry; apply Z.leb_le; lia). right. split; [|reflexivity].
      intros j (ch' & A' & C & _). rewrite (at_fun _ _ _ _ A' A) in C. rewrite <- contains_spec in C. apply set_ok_small in C; auto. lia.
Qed.
Lemma comp_atom pc k l i : k < 256 -> set_ok (getset (sets c) k) = true -> seg c (S pc) (B (Z.of_nat k) :: l) -> i <= length w ->
  atom_dec (if large (getset (sets c) k) then O_NSET else O_NSET1) pc (pc + 2) (M (Comp k) i) i.
Proof.
  intros Hk Ho S Hi. unfold atom_dec. cbn [mt]. replace (pc + 2) with (Datatypes.S (Datatypes.S pc)) by lia. pose proof (argset_u8 _ _ _ Hk S) as Ea. unfold in_class.
  destruct (large (getset (sets c) k)) eqn:El; cbn [exec1]; rewrite Ea; (destruct (cases i Hi) as [(E & N)|(ch & A & L & V)]; stopcase;
    [right; split; [intros j (ch & A & _); eapply N; eauto|reflexivity]|]).
  - rewrite (get_at c w extra HT i ch A). cbn [charn]. rewrite (nbytes_len ch V).
    destruct (contains (getset (sets c) k) ch) eqn:Ec.
    + right. split; [|reflexivity]. intros j (ch' & A' & C & _). rewrite (at_fun _ _ _ _ A' A) in C. rewrite <- contains_spec in C. congruence.
    + left. exists (Datatypes.S i). split; [exists ch; rewrite <- contains_spec; rewrite Ec; auto|]. split; [intros j' (? & _ & _ & E); exact E|]. apply one_step, A.
  - destruct (byte_ascii i ch A) as [(L1 & -> & L2)|(L1 & L2)].
    + replace (ch <? 128)%Z with true by (symmetry; apply Z.ltb_lt; lia). destruct (contains (getset (sets c) k) ch) eqn:Ec.
      * right. split; [|reflexivity]. intros j (ch' & A' & C & _). rewrite (at_fun _ _ _ _ A' A) in C. rewrite <- contains_spec in C. congruence.
      * left. exists (Datatypes.S i). split; [exists ch; rewrite <- contains_spec; rewrite Ec; auto|]. split; [intros j' (? & _ & _ & E); exact E|].
        rewrite (pos_S w i ch A), L2. f_equal. lia.
    + replace (byte c (pos i) <? 128)%Z with false by (symmetry; apply Z.ltb_ge; lia). left. exists (Datatypes.S i).
      split; [exists ch; rewrite <- contains_spec; repeat split; auto; intros C; apply set_ok_small in C; auto; lia|]. split; [intros j' (? & _ & _ & E); exact E|].
      rewrite (step_at c w extra HT i ch A). apply one_step, A.
Qed.
Lemma test_atom o pc (R : Prop) (b : bool) i : exec1 c o (S pc) (pos i) = test (Some b) (S pc) (pos i) -> (b = true <-> R) -> atom_dec o pc (S pc) (fun j => R /\ j = i) i.
Proof.
  intros E H. unfold atom_dec. rewrite E. destruct b; cbn [test]; [left|right].
  - exists i. split; [tauto|]. split; [intros j' (_ & X); exact X|reflexivity].
  - split; [|reflexivity]. intros j (X & _). apply H in X. discriminate.
Qed.
Lemma bos_atom pc i : i <= length w -> atom_dec O_BOS pc (S pc) (M Bos i) i.
Proof.
  intros Hi. apply test_atom with (R := i = 0) (b := Nat.eqb (pos i) 0); [cbn [exec1]; destruct (Nat.eqb (pos i) 0); reflexivity|].
  rewrite Nat.eqb_eq. split; [|intros ->; apply off_0]. intros E. apply (pos_inj c w extra HT); try lia. rewrite off_0. exact E.
Qed.
Lemma eos_atom pc i : i <= length w -> atom_dec O_EOS pc (S pc) (M Eos i) i.
Proof.
  intros Hi. apply test_atom with (R := i = length w) (b := Nat.eqb (pos i) (stop c)); [cbn [exec1]; destruct (Nat.eqb (pos i) (stop c)); reflexivity|].
  rewrite Nat.eqb_eq. apply (pos_stop c w extra HT). exact Hi.
Qed.
Lemma newline_byte i ch : at_ w i ch -> (newline (byte c (pos i)) = true <-> newline_at w i).
Proof.
  intros A. unfold newline, newline_at. rewrite orb_true_iff, !Z.eqb_eq. destruct (byte_ascii i ch A) as [(L & -> & _)|(L & L2)].
  - split; intros [X|X]; subst; auto; [left|right]; apply (at_fun _ _ _ _ A X).
  - split; [lia|]. intros [X|X]; pose proof (at_fun _ _ _ _ A X); lia.
Qed.
Lemma eol_atom pc i : i <= length w -> atom_dec O_EOL pc (S pc) (M Eol i) i.
Proof.
  intros Hi. apply test_atom with (b := end_of_line c (pos i)); [reflexivity|]. unfold end_of_line.
  rewrite Nat.eqb_sym, (eqb_stop c w extra HT) by lia. destruct (cases i Hi) as [(E & N)|(ch & A & L & V)]; eqb_len.
  - intuition.
  - destruct (multi c); cbn [negb].
    + rewrite (newline_byte i ch A). intuition lia.
    + intuition (try discriminate; try lia).
Qed.
Lemma bol_atom pc i : i <= length w -> atom_dec O_BOL pc (S pc) (M Bol i) i.
Proof.
  intros Hi.
  assert (X : exists b, beginning_of_line c (pos i) = Some b /\ (b = true <-> (i = 0 \/ (multi c = true /\ newline_at w (pred i))))).
  { unfold beginning_of_line. destruct (Nat.eqb_spec (pos i) 0) as [E|E].
    - assert (i = 0). { apply (pos_inj c w extra HT); try lia. rewrite off_0. exact E. } subst. exists true. intuition.
    - assert (i <> 0) by (intros ->; apply E, off_0). destruct (multi c); cbn [negb].
      + destruct i as [|i]; [lia|]. destruct (at_ex w i) as (ch & A); [lia|]. rewrite (back_at c w extra HT i ch A). cbn [pred].
        exists (newline (byte c (pos i))). split; [reflexivity|]. rewrite (newline_byte i ch A). intuition lia.
      + exists false. intuition (try discriminate; try lia). }
  destruct X as (b & Eb & Hb). apply test_atom with (b := b); [cbn [exec1]; rewrite Eb; reflexivity|exact Hb].
Qed.
Lemma word_byte i ch : at_ w i ch -> (word_constituent (byte c (pos i)) = true <-> wordc ch).
Proof.
  intros A. unfold word_constituent, wordc. rewrite !orb_true_iff, !andb_true_iff, !Z.leb_le. destruct (byte_ascii i ch A) as [(L & -> & _)|(L & L2)]; lia.
Qed.
Lemma wb_spec i : i <= length w -> exists b, word_boundary c (pos i) = Some b /\ (b = true <-> word_edge w i).
Proof.
  intros Hi. unfold word_boundary, word_edge. destruct (Nat.eqb_spec (pos i) 0) as [E|E].
  { assert (i = 0). { apply (pos_inj c w extra HT); try lia. rewrite off_0. exact E. } subst. exists true. intuition. }
  assert (i <> 0) by (intros ->; apply E, off_0). rewrite Nat.eqb_sym, (eqb_stop c w extra HT) by lia.
  destruct (cases i Hi) as [(Ei & N)|(ch & A & L & V)]; eqb_len; [exists true; intuition|].
  destruct i as [|i]; [lia|]. destruct (at_ex w i) as (d & D); [lia|]. rewrite (back_at c w extra HT i d D). cbn [pred].
  eexists. split; [reflexivity|]. pose proof (word_byte (S i) ch A) as HA. pose proof (word_byte i d D) as HD.
  destruct (word_constituent (byte c (pos (S i)))), (word_constituent (byte c (pos i))); cbn [negb andb]; split; try discriminate; try (intros; reflexivity).
  - intros [X|[X|(c1 & c2 & A1 & A2 & X)]]; try lia. rewrite (at_fun _ _ _ _ A1 D), (at_fun _ _ _ _ A2 A) in X. tauto.
  - intros _. right. right. exists d, ch. repeat split; auto. right. split; [rewrite <- HD; discriminate|tauto].
  - intros _. right. right. exists d, ch. repeat split; auto. left. split; [tauto|rewrite <- HA; discriminate].
  - intros [X|[X|(c1 & c2 & A1 & A2 & X)]]; try lia. rewrite (at_fun _ _ _ _ A1 D), (at_fun _ _ _ _ A2 A) in X. rewrite <- HA, <- HD in X. intuition discriminate.
Qed.
Lemma wb_atom pc i : i <= length w -> atom_dec O_WB pc (S pc) (M Wb i) i.
Proof. intros Hi. destruct (wb_spec i Hi) as (b & E & H). apply test_atom with (b := b); [cbn [exec1]; rewrite E; reflexivity|exact H]. Qed.
Lemma nwb_atom pc i : i <= length w -> atom_dec O_NWB pc (S pc) (M Nwb i) i.
Proof.
  intros Hi. destruct (wb_spec i Hi) as (b & E & H). apply test_atom with (b := negb b); [cbn [exec1]; rewrite E; reflexivity|].
  rewrite <- H. destruct b; cbn; intuition congruence.
Qed.

(** loops *)
Definition isrun (A : Z -> Prop) (i j : nat) : Prop := i <= j /\ forall k, i <= k -> k < j -> exists ch, at_ w k ch /\ A ch.
Definition stuck (A : Z -> Prop) (j : nat) : Prop := forall ch, at_ w j ch -> ~ A ch.
Lemma loop_run (f : nat -> turn) (A : Z -> Prop) pc' :
  (forall i ch, at_ w i ch -> (A ch /\ f (pos i) = More (pos (S i))) \/ (~ A ch /\ f (pos i) = Leave)) -> f (pos (length w)) = Leave ->
  forall fuel i, i <= length w -> length w - i < fuel -> exists j, j <= length w /\ isrun A i j /\ stuck A j /\ repeat_while f fuel (pos i) pc' = Go pc' (pos j).
Proof.
  intros F Fe. induction fuel as [|fuel IH]; intros i Hi Hf; [lia|]. cbn [repeat_while].
  destruct (cases i Hi) as [(E & N)|(ch & A1 & L & V)].
  - subst i. rewrite Fe. exists (length w). split; [lia|]. split; [split; [lia|intros; lia]|]. split; [|reflexivity]. intros ch A1. destruct (N ch A1).
  - destruct (F i ch A1) as [(Ha & E)|(Ha & E)]; rewrite E.
    + destruct (IH (S i)) as (j & Hj & (R1 & R2) & St & E2); [lia|lia|]. exists j. split; [exact Hj|]. split; [|auto]. split; [lia|].
      intros k K1 K2. destruct (Nat.eq_dec k i) as [->|]; [eauto|apply R2; lia].
    + exists i. split; [lia|]. split; [split; [lia|intros; lia]|]. split; [|reflexivity]. intros ch' A2. rewrite (at_fun _ _ _ _ A2 A1). exact Ha.
Qed.
Lemma pos_ge i j : i <= j -> j <= length w -> j - i <= pos j - pos i.
Proof.
  intros H. induction H as [|j H IH]; intros Hj; [lia|]. destruct (at_ex w j) as (ch & A); [lia|]. rewrite (pos_S w j ch A).
  assert (1 <= length (char_put ch)). { destruct (char_put_cons ch (at_valid c w extra HT _ _ A)) as (b & bs & -> & _). cbn. lia. }
  assert (pos i <= pos j) by (apply (pos_le c w extra HT); lia). lia.
Qed.
Definition atomset (x : re) : option (Z -> Prop) :=
  match x with
  | Any => Some (fun _ => True) | Chr ch => Some (fun d => d = ch)
  | CSet k => Some (in_class (sets c) k) | Comp k => Some (fun d => ~ in_class (sets c) k d)
  | _ => None
  end.
Definition atom_wf (x : re) : Prop :=
  match x with Chr ch => valid_char ch | CSet k | Comp k => k < 256 /\ set_ok (getset (sets c) k) = true | _ => True end.
Definition loop_code (x : re) : list item := match while_items (sets c) x with Some l => l | None => [] end.
Lemma while_run x A pc i : atomset x = Some A -> atom_wf x -> seg c pc (loop_code x) -> i <= length w ->
  exists o l j, loop_code x = OP o :: l /\ plain o = true /\ j <= length w /\ isrun A i j /\ stuck A j /\ exec1 c o (S pc) (pos i) = Go (pc + size (loop_code x)) (pos j).
Proof.
  intros EA Wf Sg Hi.
  assert (Fu : length w - i < S (stop c - pos i)). { rewrite (stop_pos c w extra HT). pose proof (pos_ge i (length w)). lia. }
  assert (LS : forall i ch, at_ w i ch -> Nat.leb (stop c) (pos i) = false).
  { intros k ch A1. rewrite (leb_stop c w extra HT) by (apply at_lt in A1; lia). apply at_lt in A1. destruct (Nat.eqb_spec k (length w)); [lia|reflexivity]. }
  assert (LE : Nat.leb (stop c) (pos (length w)) = true).
  { rewrite (leb_stop c w extra HT), Nat.eqb_refl by lia. reflexivity. }
  destruct x; cbn [atomset] in EA; try discriminate; injection EA as EA; subst A; unfold loop_code in *; cbn [while_items] in *.
  - cbn [atom_wf] in Wf. pose proof (nbytes_len c0 Wf) as NL. destruct (Z.eqb_spec (nbytes c0) 1) as [E|E].
    + exists O_MATCH1R, [B c0].
      assert (E1 : (c0 < 128)%Z /\ char_put c0 = [c0]).
      { destruct (lead_byte c0 Wf) as [(L & X)|(L & _ & X)]; auto. exfalso. rewrite <- NL, E in X. cbn in X. lia. }
      destruct E1 as (E1 & E2).
      apply seg_B in Sg as (_ & Sg). pose proof (seg_arg _ _ _ _ Sg) as Sa. unfold u8 in Sa. rewrite Z.mod_small in Sa by (unfold valid_char in Wf; lia).
      edestruct (loop_run (fun p => if Nat.leb (stop c) p then Leave else (fun p => if (128 <=? byte c p)%Z then Leave else if (arg c (S pc) =? byte c p)%Z then More (S p) else Leave) p) (fun d => d = c0))
        with (fuel := S (stop c - pos i)) (i := i) as (j & Hj & R & St & Ex); [| |exact Hi|exact Fu|].
      * intros k ch A1. rewrite (LS k ch A1). rewrite Sa. destruct (byte_ascii k ch A1) as [(L & -> & L2)|(L & L2)].
        -- replace (128 <=? ch)%Z with false by (symmetry; apply Z.leb_gt; lia). destruct (Z.eqb_spec c0 ch); [left|right]; split; auto. rewrite (pos_S w k ch A1), L2. f_equal. lia.
        -- right. replace (128 <=? byte c (pos k))%Z with true by (symmetry; apply Z.leb_le; lia). split; [lia|reflexivity].
      * rewrite LE. reflexivity.
      * exists j. repeat split; try reflexivity; try exact Hj; try apply R; try exact St. cbn [exec1]. replace (pc + size [OP O_MATCH1R; B c0]) with (S (S pc)) by (cbn; lia). exact Ex.
    + exists O_MATCHR, (B (nbytes c0) :: map B (char_put c0)).
      apply seg_B in Sg as (_ & Sg). pose proof (seg_arg _ _ _ _ Sg) as Sa. apply seg_B in Sg as (_ & Sg).
      assert (NB : (1 <= nbytes c0 <= 6)%Z). { unfold nbytes. repeat match goal with |- context [if ?a then _ else _] => destruct a end; lia. }
      unfold u8 in Sa. rewrite Z.mod_small in Sa by lia.
      assert (Fb : forall k, k < length (char_put c0) -> arg c (S (S pc) + k) = nth k (char_put c0) (-1)%Z).
      { intros k Hk. eapply seg_bytes; [apply char_put_bytes; exact Wf| |exact Hk]. rewrite app_nil_r. exact Sg. }
      edestruct (loop_run (fun p => if Nat.ltb (stop c) (p + Z.to_nat (arg c (S pc))) then Leave else if match_bytes c (S (S pc)) p (Z.to_nat (arg c (S pc))) then More (p + Z.to_nat (arg c (S pc))) else Leave) (fun d => d = c0))
        with (fuel := S (stop c - pos i)) (i := i) as (j & Hj & R & St & Ex); [| |exact Hi|exact Fu|].
      * intros k ch A1. rewrite Sa, NL. pose proof (at_lt _ _ _ A1) as Lk. 
        assert (HP := enc_prefix c w extra HT [c0] k (Forall_cons _ Wf (Forall_nil _)) ltac:(lia)). unfold enc in HP. cbn [map concat length] in HP. rewrite app_nil_r in HP.
        assert (Ps : pos k <= stop c). { rewrite (stop_pos c w extra HT). apply (pos_le c w extra HT); lia. }
        assert (M1 : mrun w [c0] k (k + 1) <-> ch = c0). { rewrite mrun_one. unfold at_ in *. rewrite A1. intuition (try congruence; try lia). }
        rewrite M1 in HP. destruct (Nat.ltb_spec (stop c) (pos k + length (char_put c0))) as [L|L].
        -- right. split; [|reflexivity]. intros X. apply HP in X as (X & _). lia.
        -- destruct (match_bytes c (S (S pc)) (pos k) (length (char_put c0))) eqn:Em.
           ++ left. assert (ch = c0). { apply HP. split; [lia|]. intros q Hq. rewrite <- Fb by assumption. rewrite match_bytes_spec in Em. apply Em. exact Hq. }
              subst. split; [reflexivity|]. rewrite (pos_S w k c0 A1). reflexivity.
           ++ right. split; [|reflexivity]. intros X. apply HP in X as (_ & X). enough (match_bytes c (S (S pc)) (pos k) (length (char_put c0)) = true) by congruence.
              apply match_bytes_spec. intros q Hq. rewrite Fb by assumption. apply X. exact Hq.
      * rewrite Sa, NL. rewrite <- (stop_pos c w extra HT). destruct (Nat.ltb_spec (stop c) (stop c + length (char_put c0))); [reflexivity|lia].
      * exists j. repeat split; try reflexivity; try exact Hj; try apply R; try exact St. cbn [exec1].
        rewrite !size_cons, size_map_B. cbn [isize OP]. replace (pc + (1 + (1 + length (char_put c0)))) with (S (S pc) + Z.to_nat (arg c (S pc))) by (rewrite Sa, NL; lia). exact Ex.
  - destruct Wf as (Hk & Ho). apply seg_B in Sg as (_ & Sg). pose proof (argset_u8 _ _ _ Hk Sg) as Ea.
    exists (if large (getset (sets c) k) then O_SETR else O_SET1R), [B (Z.of_nat k)].
    replace (pc + size [OP (if large (getset (sets c) k) then O_SETR else O_SET1R); B (Z.of_nat k)]) with (S (S pc)) by (cbn; lia).
    destruct (large (getset (sets c) k)) eqn:El.
    + edestruct (loop_run (fun p => if Nat.leb (stop c) p then Leave else (fun p => turn_char c p (contains (argset c (S pc)))) p) (in_class (sets c) k))
        with (fuel := S (stop c - pos i)) (i := i) as (j & Hj & R & St & Ex); [| |exact Hi|exact Fu|].
      * intros q ch A1. rewrite (LS q ch A1). rewrite Ea. unfold turn_char. rewrite (get_at c w extra HT q ch A1). cbn [charn]. unfold in_class. rewrite <- contains_spec.
        rewrite (nbytes_len ch (at_valid c w extra HT _ _ A1)), <- (pos_S w q ch A1). destruct (contains (getset (sets c) k) ch); [left|right]; split; auto; discriminate.
      * rewrite LE. reflexivity.
      * exists j. repeat split; try reflexivity; try exact Hj; try apply R; try exact St. exact Ex.
    + edestruct (loop_run (fun p => if Nat.leb (stop c) p then Leave else (fun p => if (128 <=? byte c p)%Z then Leave else if contains (argset c (S pc)) (byte c p) then More (S p) else Leave) p) (in_class (sets c) k))
        with (fuel := S (stop c - pos i)) (i := i) as (j & Hj & R & St & Ex); [| |exact Hi|exact Fu|].
      * intros q ch A1. rewrite (LS q ch A1). rewrite Ea. unfold in_class. rewrite <- contains_spec. destruct (byte_ascii q ch A1) as [(L & -> & L2)|(L & L2)].
        -- replace (128 <=? ch)%Z with false by (symmetry; apply Z.leb_gt; lia). rewrite (pos_S w q ch A1), L2. replace (pos q + 1) with (S (pos q)) by lia.
           destruct (contains (getset (sets c) k) ch); [left|right]; split; auto; discriminate.
        -- right. replace (128 <=? byte c (pos q))%Z with true by (symmetry; apply Z.leb_le; lia). split; [|reflexivity]. intros X. apply set_ok_small in X; auto. lia.
      * rewrite LE. reflexivity.
      * exists j. repeat split; try reflexivity; try exact Hj; try apply R; try exact St. exact Ex.
  - destruct Wf as (Hk & Ho). apply seg_B in Sg as (_ & Sg). pose proof (argset_u8 _ _ _ Hk Sg) as Ea.
    exists O_NSETR, [B (Z.of_nat k)]. replace (pc + size [OP O_NSETR; B (Z.of_nat k)]) with (S (S pc)) by (cbn; lia).
    edestruct (loop_run (fun p => if Nat.leb (stop c) p then Leave else (fun p => turn_char c p (fun ch => negb (contains (argset c (S pc)) ch))) p) (fun d => ~ in_class (sets c) k d))
        with (fuel := S (stop c - pos i)) (i := i) as (j & Hj & R & St & Ex); [| |exact Hi|exact Fu|].
    * intros q ch A1. rewrite (LS q ch A1). rewrite Ea. unfold turn_char. rewrite (get_at c w extra HT q ch A1). cbn [charn]. unfold in_class. rewrite <- contains_spec.
      rewrite (nbytes_len ch (at_valid c w extra HT _ _ A1)), <- (pos_S w q ch A1). destruct (contains (getset (sets c) k) ch); [right|left]; split; auto; discriminate.
    * rewrite LE. reflexivity.
    * exists j. repeat split; try reflexivity; try exact Hj; try apply R; try exact St. exact Ex.
  - exists O_ANYR, []. replace (pc + size [OP O_ANYR]) with (S pc) by (cbn; lia).
    edestruct (loop_run (fun p => if Nat.leb (stop c) p then Leave else (fun p => More (p + step_len c p)) p) (fun _ => True))
        with (fuel := S (stop c - pos i)) (i := i) as (j & Hj & R & St & Ex); [| |exact Hi|exact Fu|].
    * intros q ch A1. rewrite (LS q ch A1). left. split; [exact Logic.I|]. rewrite (step_at c w extra HT q ch A1), <- (pos_S w q ch A1). reflexivity.
    * rewrite LE. reflexivity.
    * exists j. repeat split; try reflexivity; try exact Hj; try apply R; try exact St. exact Ex.
Qed.
End Atom.
