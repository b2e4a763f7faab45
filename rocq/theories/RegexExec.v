(** From the generated code to the answer of a search. *)
From Coq Require Import List ZArith Bool Lia.
From Verif Require Import Utf8Model Utf8Spec Utf8Proofs StringProofs SearchProofs2 RegexModel RegexSpec RegexScope RegexVm RegexDec RegexAtom RegexComp RegexMain.
Import ListNotations.
Local Open Scope nat_scope.
Ltac Zify.zify_post_hook ::= idtac.

(** Language-level facts behind the start-position tricks. *)
Section LangFacts.
Variables (w : list Z) (Ss : list cset) (mu : bool).
Notation M := (mt w Ss mu).
Notation Ms := (mts w Ss mu).
Lemma anchored_start a r : (a = Bos \/ (a = Bol /\ mu = false)) -> anchored a r = true -> forall i j, M r i j -> i = 0.
Proof.
  intros Ha. induction r using re_ind'; cbn [anchored]; try discriminate; intros E i j.
  - intros (A & _). exact A.
  - destruct Ha as [->|(-> & Em)]; [discriminate|]. intros ([A|(A & _)] & _); [exact A|congruence].
  - rewrite mt_seq. destruct l as [|x l]; [discriminate|]. intros (h & A & _). apply Forall_inv in H. eauto.
  - intros [].
  - rewrite mt_cased. destruct l as [|x l]; [discriminate|]. intros (h & A & _). apply Forall_inv in H. eauto.
  - rewrite mt_alt. intros (x & I & A). rewrite forallb_forall in E. rewrite Forall_forall in H. eauto.
  - rewrite mt_grp. destruct l as [|x l]; [discriminate|]. intros (h & A & _). apply Forall_inv in H. eauto.
Qed.
Definition lasetn (Ss : list cset) := fix lasetn (l : list re) : option (Z -> bool) := match l with [] => None | x :: l' => laset Ss x (lasetn l') end.
Lemma laset_start r : forall rest la i j (W : nat -> Prop), laset Ss r rest = Some la -> (forall lr, rest = Some lr -> forall k, W k -> exists ch, at_ w k ch /\ lr ch = true) ->
  M r i j -> W j -> exists ch, at_ w i ch /\ la ch = true.
Proof.
  assert (LN : forall l, Forall (fun r => forall rest la i j (W : nat -> Prop), laset Ss r rest = Some la -> (forall lr, rest = Some lr -> forall k, W k -> exists ch, at_ w k ch /\ lr ch = true) ->
     M r i j -> W j -> exists ch, at_ w i ch /\ la ch = true) l -> forall la i j, lasetn Ss l = Some la -> Ms l i j -> exists ch, at_ w i ch /\ la ch = true).
  { induction 1 as [|x l Hx Hl IH]; cbn [lasetn]; [discriminate|]. fold (lasetn Ss). intros la i j E (h & A & B).
    eapply (Hx (lasetn Ss l) la i h (fun h => Ms l h j)); eauto. }
  assert (X : forall l g, fold_left (fun r y => merge_laset r (laset Ss y None)) l None = Some g -> False).
  { induction l as [|y l IH]; cbn [fold_left]; [discriminate|]. intros g. cbn [merge_laset]. apply IH. }
  induction r using re_ind'; intros rest la i j W E HR; cbn [laset] in E; try discriminate.
  - injection E as <-. intros (A & _) _. exists c. rewrite Z.eqb_refl. auto.
  - injection E as <-. intros (ch & A & B & _) _. exists ch. split; auto. apply contains_spec. exact B.
  - injection E as <-. intros (ch & A & B & _) _. exists ch. split; auto. apply negb_true_iff. destruct (contains (getset Ss k) ch) eqn:F; auto. apply contains_spec in F. contradiction.
  - rewrite mt_seq. intros A _. eapply LN; eauto.
  - destruct l as [|x l]; [discriminate|]. rewrite mt_alt. intros (y & I & A) Wj.
    assert (G : forall l a, fold_left (fun r y => merge_laset r (laset Ss y None)) l a = Some la -> (exists f, a = Some f /\ forall ch, f ch = true -> la ch = true) /\ forall y, In y l -> exists f, laset Ss y None = Some f /\ forall ch, f ch = true -> la ch = true).
    { clear - X. induction l as [|y l IH]; cbn [fold_left]; intros a E.
      - subst. split; [eauto|intros y []].
      - destruct (IH _ E) as ((f & E1 & E2) & E3). destruct a as [fa|]; [|exfalso; discriminate E1]. destruct (laset Ss y None) as [fy|] eqn:Ey; [|discriminate E1]. cbn [merge_laset] in E1. injection E1 as <-. split.
        + exists fa. split; auto. intros ch F. apply E2. rewrite F. reflexivity.
        + intros z [<-|I]; [|auto]. exists fy. split; auto. intros ch F. apply E2. rewrite F. apply orb_true_r. }
    destruct (G l _ E) as ((f & E1 & E2) & E3). rewrite Forall_forall in H.
    assert (exists f, laset Ss y None = Some f /\ forall ch, f ch = true -> la ch = true) as (fy & Y1 & Y2) by (destruct I as [<-|I]; [eauto|auto]).
    destruct (H y I None fy i j (fun _ => True) Y1) as (ch & Q1 & Q2); auto; [discriminate|eauto].
  - rewrite mt_rep. intros (q & A1 & _ & A) Wj. destruct (Nat.eqb_spec m 0) as [->|Nm].
    + change (merge_laset (lasetn Ss l) rest = Some la) in E. destruct (lasetn Ss l) as [f|] eqn:El; [|discriminate]. destruct rest as [lr|]; [|discriminate]. injection E as <-.
      destruct q as [|q]; cbn [iter] in A.
      * subst. destruct (HR lr eq_refl j Wj) as (ch & B1 & B2). exists ch. split; auto. rewrite B2. apply orb_true_r.
      * destruct A as (h & A & _). destruct (LN l H f i h El A) as (ch & B1 & B2). exists ch. split; auto. rewrite B2. reflexivity.
    + destruct q as [|q]; [lia|]. destruct A as (h & A & _). eapply LN; eauto.
  - rewrite mt_grp. intros A _. eapply LN; eauto.
  - intros [].
Qed.
Lemma simple_la r rest : simple_prefixed r = true -> exists la, laset Ss r rest = Some la.
Proof.
  revert rest. induction r using re_ind'; cbn [simple_prefixed]; try discriminate; intros rest E.
  - destruct l as [|x l]; [discriminate|]. cbn [laset]. apply Forall_inv in H. apply H, E.
  - destruct k; try discriminate. destruct m as [|[|m]]; try discriminate. destruct n; try discriminate. destruct l as [|x [|y l]]; try discriminate. destruct x; try discriminate; cbn [laset Nat.eqb]; eauto.
  - destruct l as [|x l]; [discriminate|]. cbn [laset]. apply Forall_inv in H. apply H, E.
Qed.
Lemma simple_extend r : simple_prefixed r = true -> forall rest la i j ch, laset Ss r rest = Some la -> at_ w i ch -> la ch = true -> M r (S i) j -> M r i j.
Proof.
  induction r using re_ind'; cbn [simple_prefixed]; try discriminate; intros E rest la i j ch L A1 A2.
  - destruct l as [|x l]; [discriminate|]. rewrite !mt_seq. intros (h & B & B'). apply Forall_inv in H. exists h. split; auto. eapply H; eauto.
  - destruct k; try discriminate. destruct m as [|[|m]]; try discriminate. destruct n; try discriminate. destruct l as [|x [|y l]]; try discriminate.
    rewrite !mt_rep. intros (q & B1 & _ & B). exists (S q). split; [lia|]. split; auto. cbn [iter]. exists (S i). split; auto. apply mts_one.
    destruct x; try discriminate; cbn [laset Nat.eqb] in L; injection L as <-; cbn [mt].
    + apply Z.eqb_eq in A2. subst. auto.
    + exists ch. repeat split; auto. apply contains_spec. exact A2.
    + exists ch. repeat split; auto. intros F. apply contains_spec in F. rewrite F in A2. discriminate.
  - destruct l as [|x l]; [discriminate|]. rewrite !mt_grp. intros (h & B & B'). apply Forall_inv in H. exists h. split; auto. eapply H; eauto.
Qed.
End LangFacts.

Section Exec.
Variables (rx : regexp) (down : Z -> Z) (w extra : list Z) (l : list re).
Notation c := (mkctx rx down (enc w ++ extra) (length (enc w))).
Notation Ss := (rx_sets rx).
Notation mu := (rx_multi rx).
Hypothesis Hrx : rc3 Ss mu (Grp 0 l) = Some rx.
Hypothesis wv : Forall valid_char w.
Hypothesis Hex : char_get extra <> Oob.
Hypothesis Hwf : wf Ss mu true (Grp 0 l) = true.
Hypothesis Hsafe : safes c w l (fun _ => True).
Variable Cap : nat -> nat -> nat -> Prop.
Notation pos i := (off w i).
Notation M := (mt w Ss mu).
Notation Ms := (mts w Ss mu).
(** a submatch lies between the start of the search and the end e *)
Definition capok (i0 e : nat) (g : nat) (v : option nat * option nat) : Prop :=
  v = (None, None) \/ exists i j, i0 <= i /\ i <= j /\ j <= e /\ Cap g i j /\ v = (Some (pos i), Some (pos j)).
Fixpoint lookup (g : nat) (O : list (nat * nat)) : option nat := match O with [] => None | (h, i) :: O' => if Nat.eqb g h then Some i else lookup g O' end.
Definition inv (i0 : nat) (O : list (nat * nat)) (p : nat) (m : caps) : Prop :=
  i0 <= p /\ forall g, match lookup g O with Some i => i0 <= i /\ i <= p /\ fst (m g) = Some (pos i) | None => capok i0 p g (m g) end.
Lemma capok_mono i0 e e' g v : e <= e' -> capok i0 e g v -> capok i0 e' g v.
Proof. intros L [E|(i & j & A & B & C & D & E)]; [left; exact E|]. right. exists i, j. repeat split; auto. lia. Qed.
Lemma lookup_in g O : lookup g O = None <-> ~ In g (map fst O).
Proof.
  induction O as [|(h, i) O IH]; cbn [lookup map fst In]; [tauto|]. destruct (Nat.eqb_spec g h) as [->|N]; [split; [discriminate|intros X; exfalso; auto]|]. rewrite IH. intuition.
Qed.
Lemma inv_k i0 : invk (inv i0).
Proof.
  split.
  - intros O p m m' (L & I) (K1 & K2). split; auto. intros g. specialize (I g). destruct (lookup g O) eqn:E; [rewrite K1; exact I|]. apply lookup_in in E. rewrite K2; auto.
  - intros O p p' m L (L1 & I). split; [lia|]. intros g. specialize (I g). destruct (lookup g O); [destruct I as (A & B & C); repeat split; auto; lia|]. eapply capok_mono; eauto.
Qed.
Definition capclosed (L : list re) : Prop := forall g b, In (g, b) (flat_map groups L) -> forall i j, Ms b i j -> Cap g i j.
Lemma nest_gok i0 r : forall O, nest (map fst O) r = true -> capclosed [r] -> gok c w (inv i0) r O.
Proof.
  assert (CL : forall L x, In x L -> capclosed L -> capclosed [x]).
  { intros L x I H g b J. apply H. cbn [flat_map] in J. rewrite app_nil_r in J. apply in_flat_map. eauto. }
  assert (X : forall L, Forall (fun r => forall O, nest (map fst O) r = true -> capclosed [r] -> gok c w (inv i0) r O) L -> forall O, forallb (nest (map fst O)) L = true -> capclosed L -> goks c w (inv i0) L O).
  { intros L HL O N HC. apply goks_forall. apply Forall_forall. intros x I. rewrite Forall_forall in HL. apply HL; auto; [|eapply CL; eauto]. rewrite forallb_forall in N. auto. }
  induction r using re_ind'; intros O N HC; try exact Logic.I.
  1-4: apply X; auto; intros g b J; apply HC; cbn [flat_map groups]; rewrite app_nil_r; exact J.
  cbn [nest] in N. apply andb_true_iff in N as (N1 & N2). apply negb_true_iff in N1.
  assert (Ng : lookup g O = None).
  { apply lookup_in. intros I. enough (existsb (Nat.eqb g) (map fst O) = true) by congruence. apply existsb_exists. exists g. rewrite Nat.eqb_refl. auto. }
  cbn [gok]. split; [|split].
  - intros i m Hi (L & I). split; auto. intros h. specialize (I h). cbn [lookup]. unfold set_start. destruct (Nat.eqb_spec h g) as [E|Nh]; [repeat split; auto|exact I].
  - intros i j m Hi (L & I) A. split; auto. intros h. pose proof (I h) as Ih. pose proof (I g) as Ig. cbn [lookup] in Ih, Ig. rewrite Nat.eqb_refl in Ig. unfold set_end. destruct (Nat.eqb_spec h g) as [E|Nh]; [|exact Ih].
    rewrite E, Ng. right. destruct Ig as (I1 & I2 & I3). exists i, j. pose proof (mts_range w Ss mu l0 i j Hi A). rewrite I3. repeat split; auto; try lia. eapply HC; [|exact A]. cbn. auto.
  - intros i. apply X; auto. intros h b J. apply HC. cbn [flat_map groups]. rewrite app_nil_r. right. exact J.
Qed.
Hypothesis Hnest : nest [] (Grp 0 l) = true.
Hypothesis Hcap : capclosed l.
Lemma textc : textok c w extra. Proof. repeat split; auto. Qed.
(** what a match starting at character i looks like *)
Definition found (i : nat) (m : caps) : Prop := exists j, Ms l i j /\ m 0 = (Some (pos i), Some (pos j)) /\ j <= length w /\ forall g, g <> 0 -> capok i j g (m g).
Lemma rc3_code : exists pre, assemble (comp Ss mu false (Grp 0 l) 0 true ++ [OP O_SUCCESS]) = Some pre /\ rx_code rx = pre.
Proof.
  unfold rc3 in Hrx. destruct (assemble _) as [code|] eqn:E; [|discriminate]. exists code. split; auto. injection Hrx as <-. reflexivity.
Qed.
Lemma seg_all : seg c 0 (comp Ss mu false (Grp 0 l) 0 true ++ [OP O_SUCCESS]).
Proof.
  destruct rc3_code as (pre & E & Ec). unfold assemble in E. destruct (forallb item_ok _) eqn:F; [|discriminate]. injection E as E.
  exists [], []. cbn [mkctx code]. rewrite Ec, <- E, app_nil_r. auto.
Qed.
Lemma rex_at i : i <= length w -> exists N, forall fuel, N <= fuel ->
  (exists m, rex c fuel (pos i) = Some (RMatch m) /\ found i m) \/ (rex c fuel (pos i) = Some RNone /\ forall j, ~ Ms l i j).
Proof.
  intros Hi. pose proof seg_all as Sg. cbn [comp] in Sg.
  cbn [wf] in Hwf. pose proof Hwf as Wf. cbn [Nat.ltb Nat.leb andb] in Wf.
  cbn [nest existsb negb andb] in Hnest.
  assert (D : decides c w (inv i) (found i) [] 0 (wps c w l (fun _ => True)) i).
  { change (OP O_BEGIN :: B (Z.of_nat 0) :: seq_items false [] 0 (elts (comp Ss mu false) l) (0 + 2) true ++ [OP O_END; B (Z.of_nat 0)]) with
      ([OP O_BEGIN; B (Z.of_nat 0)] ++ seq_items false [] 0 (elts (comp Ss mu false) l) (0 + 2) true ++ [OP O_END; B (Z.of_nat 0)]) in Sg.
    rewrite <- !app_assoc in Sg. cbn [app] in Sg. pose proof Sg as S0. apply seg_B in Sg as (_ & Sg). apply seg_B in Sg as (_ & Sg). apply seg_app in Sg as (S1 & S2).
    eapply (dec_begin c w (inv i) (found i) [] 0 0 _ _ i ltac:(lia) S0).
    { intros m (L & I). split; auto. intros h. specialize (I h). cbn [lookup] in *. unfold set_start. destruct (Nat.eqb_spec h 0) as [E|]; [repeat split; auto|exact I]. }
    eapply (seq_dec0 c w extra textc l (inv i) (found i) [(0, i)] 2 true i (fun _ => True)); auto.
    - apply Forall_forall. intros x _. apply (comp_correct c w extra textc).
    - apply inv_k.
    - apply goks_forall, Forall_forall. intros x I. apply nest_gok; [rewrite forallb_forall in Hnest; auto|]. intros g b J. apply Hcap. cbn [flat_map] in J. rewrite app_nil_r in J. apply in_flat_map. eauto.
    - intros j A. left. split; [|exact Logic.I]. intros m (L & I). exists (pos j), (set_end m 0 (pos j)). split.
      + eapply (runs_end c _ 0); [lia|exact S2|]. eapply runs_success. apply seg_B in S2 as (_ & S2). apply seg_B in S2 as (_ & S2). rewrite <- plus_n_Sm, <- plus_n_Sm, Nat.add_0_r. exact S2.
      + exists j. split; [exact A|]. pose proof (I 0) as I0. cbn [lookup Nat.eqb] in I0. destruct I0 as (_ & _ & I0). split; [unfold set_end; cbn [Nat.eqb]; rewrite I0; reflexivity|]. split; [apply (mts_range w Ss mu l i j Hi A)|].
        intros g Ng. specialize (I g). cbn [lookup] in I. unfold set_end. destruct (Nat.eqb_spec g 0) as [E|_]; [contradiction|]. exact I. }
  destruct D as [(A & B)|(A & B)].
  - destruct (A (fun _ => (None, None))) as (q & m' & (N & R) & F). { split; auto. intros g. left. reflexivity. }
    exists N. intros fuel Hf. left. exists m'. split; auto. unfold rex. rewrite (run_mono _ _ _ _ _ _ R) by exact Hf. reflexivity.
  - destruct (A (fun _ => (None, None))) as (m' & (N & R) & F). exists N. intros fuel Hf. right. split.
    + unfold rex. rewrite (run_mono _ _ _ _ _ _ R) by exact Hf. reflexivity.
    + intros j Mj. apply B. exists j. auto.
Qed.
Lemma rex_all : exists N, forall fuel i, N <= fuel -> i <= length w ->
  (exists m, rex c fuel (pos i) = Some (RMatch m) /\ found i m) \/ (rex c fuel (pos i) = Some RNone /\ forall j, ~ Ms l i j).
Proof.
  assert (X : forall n, n <= length w -> exists N, forall fuel i, N <= fuel -> i <= n ->
    (exists m, rex c fuel (pos i) = Some (RMatch m) /\ found i m) \/ (rex c fuel (pos i) = Some RNone /\ forall j, ~ Ms l i j)).
  { induction n as [|n IH]; intros Hn.
    - destruct (rex_at 0 Hn) as (N & H). exists N. intros fuel i Hf Hi. replace i with 0 by lia. auto.
    - destruct IH as (N & H); [lia|]. destruct (rex_at (S n) Hn) as (N' & H'). exists (max N N'). intros fuel i Hf Hi. destruct (Nat.eq_dec i (S n)) as [->|]; [apply H'; lia|apply H; lia]. }
  apply X. lia.
Qed.
(** the answer of a search from character i0 on: the leftmost match, or none *)
Definition answer (i0 : nat) (res : result) : Prop :=
  (exists m i, res = RMatch m /\ i0 <= i <= length w /\ found i m /\ forall i' j', i0 <= i' -> i' < i -> ~ Ms l i' j') \/
  (res = RNone /\ forall i' j', i0 <= i' -> i' <= length w -> ~ Ms l i' j').
Lemma answer_skip i k res : i <= k -> k <= length w -> (forall i' j', i <= i' -> i' < k -> ~ Ms l i' j') -> answer k res -> answer i res.
Proof.
  intros L1 L2 N [(m & p & E & H1 & H2 & H3)|(E & H)].
  - left. exists m, p. repeat split; auto; try lia; intros i' j' A B. destruct (le_lt_dec k i'); [apply H3; lia|apply N; lia].
  - right. split; auto. intros i' j' A B. destruct (le_lt_dec k i'); [apply H; lia|apply N; lia].
Qed.
Lemma answer_found i m : i <= length w -> found i m -> answer i (RMatch m).
Proof. intros H F. left. exists m, i. repeat split; auto; lia. Qed.
Lemma skip_spec la b : forall fuel i, i <= length w -> S (length w - i) < fuel ->
  exists k, skip_input c la b fuel (pos i) = Some (pos k) /\ i <= k <= length w /\ (forall k', i <= k' -> k' < k -> exists ch, at_ w k' ch /\ la ch = b) /\
            (k < length w -> exists ch, at_ w k ch /\ la ch = negb b).
Proof.
  induction fuel as [|fuel IH]; intros i Hi Hf; [lia|]. cbn [skip_input].
  assert (Hs : stop c = pos (length w)) by (apply (stop_pos c w extra textc)).
  destruct (Nat.leb_spec (pos i) (stop c)) as [L|L]; [|rewrite Hs in L; pose proof (pos_le c w extra textc i (length w) ltac:(lia) ltac:(lia)); lia].
  destruct (Nat.eq_dec i (length w)) as [->|Ni].
  - assert (E : exists g, get c (pos (length w)) = g /\ g <> Oob).
    { eexists. split; [reflexivity|]. unfold get. cbn [mkctx buf]. rewrite skipn_enc by lia. rewrite skipn_all. cbn. exact Hex. }
    destruct E as (g & E & Ng). rewrite E.
    exists (length w). split; [|repeat split; try lia; intros; lia].
    assert (Sk : skip_input c la b fuel (pos (length w) + step_len c (pos (length w))) = Some (pos (length w))).
    { destruct fuel as [|fuel]; [lia|]. cbn [skip_input]. destruct (Nat.leb_spec (pos (length w) + step_len c (pos (length w))) (stop c)) as [L'|L']; [rewrite Hs in L'; unfold step_len in L'; lia|]. rewrite Hs. reflexivity. }
    destruct g; try congruence; destruct (Bool.eqb _ b); auto.
  - destruct (at_ex w i) as (ch & A); [lia|]. rewrite (get_at c w extra textc i ch A). cbn [charn].
    destruct (Bool.eqb (la ch) b) eqn:E.
    + apply eqb_prop in E. rewrite (step_at c w extra textc i ch A), <- (pos_S w i ch A). destruct (IH (S i)) as (k & K1 & K2 & K3 & K4); [lia|lia|].
      exists k. split; auto. split; [lia|]. split; auto. intros k' A1 A2. destruct (Nat.eq_dec k' i) as [->|]; [eauto|apply K3; lia].
    + exists i. split; auto. split; [lia|]. split; [intros; lia|]. intros _. exists ch. split; auto. destruct (la ch), b; try discriminate; reflexivity.
Qed.
Lemma rx_fields : rx_anchored rx = (anchored Bos (Grp 0 l) || (negb mu && anchored Bol (Grp 0 l))) /\ rx_laset rx = laset Ss (Grp 0 l) None /\
  (rx_simple rx = true -> simple_prefixed (Grp 0 l) = true).
Proof.
  unfold rc3 in Hrx. destruct (assemble _) as [code|] eqn:E; [|discriminate]. injection Hrx as H.
  pose proof (f_equal rx_anchored H) as H1. pose proof (f_equal rx_laset H) as H2. pose proof (f_equal rx_simple H) as H3. cbn [rx_anchored rx_laset rx_simple] in H1, H2, H3.
  split; [symmetry; exact H1|]. split; [symmetry; exact H2|]. rewrite <- H3. intros S. apply andb_true_iff in S as (_ & S). exact S.
Qed.
Lemma step_ge p : p < p + step_len c p. Proof. unfold step_len. lia. Qed.
Lemma loop_spec fuel : (forall i, i <= length w -> (exists m, rex c fuel (pos i) = Some (RMatch m) /\ found i m) \/ (rex c fuel (pos i) = Some RNone /\ forall j, ~ Ms l i j)) ->
  forall n i, i <= length w -> S (length w - i) < n -> exists res, exec_loop c rx fuel n (pos i) = Some res /\ answer i res.
Proof.
  intros RX. destruct rx_fields as (_ & Ela & Esi).
  assert (Hs : stop c = pos (length w)) by (apply (stop_pos c w extra textc)).
  assert (Out : forall n p, stop c < p -> 0 < n -> exec_loop c rx fuel n p = Some RNone).
  { intros n p L Hn. destruct n as [|n]; [lia|]. cbn [exec_loop]. destruct (Nat.leb_spec p (stop c)); [lia|reflexivity]. }
  assert (Last : (forall j, ~ Ms l (length w) j) -> answer (length w) RNone).
  { intros N. right. split; auto. intros i' j' A B. replace i' with (length w) by lia. apply N. }
  induction n as [|n IH]; intros i Hi Hn; [lia|]. cbn [exec_loop].
  destruct (Nat.leb_spec (pos i) (stop c)) as [_|L]; [|rewrite Hs in L; pose proof (pos_le c w extra textc i (length w) ltac:(lia) ltac:(lia)); lia].
  (* one step forward after a failure at k *)
  assert (Adv : forall k, i <= k -> k <= length w -> (forall j, ~ Ms l k j) -> exists res, exec_loop c rx fuel n (pos k + step_len c (pos k)) = Some res /\ answer k res).
  { intros k L1 L2 N. destruct (Nat.eq_dec k (length w)) as [->|Nk].
    - exists RNone. split; [|auto]. apply Out; [|lia]. rewrite Hs. pose proof (step_ge (pos (length w))). lia.
    - destruct (at_ex w k) as (ch & A); [lia|]. rewrite (step_at c w extra textc k ch A), <- (pos_S w k ch A). destruct (IH (S k)) as (res & E & R); [lia|lia|].
      exists res. split; auto. eapply answer_skip; [| | |exact R]; try lia. intros i' j' A1 A2. replace i' with k by lia. apply N. }
  destruct (rx_laset rx) as [la|] eqn:El.
  2: { destruct (RX i Hi) as [(m & E & F)|(E & N)]; rewrite E; [exists (RMatch m); split; auto; apply answer_found; auto|]. apply Adv; auto. }
  assert (LS : forall k j, Ms l k j -> exists ch, at_ w k ch /\ la ch = true).
  { intros k j A. symmetry in Ela. eapply (laset_start w Ss mu (Grp 0 l) None la k j (fun _ => True)); eauto. discriminate. }
  destruct (rx_simple rx) eqn:Es.
  - specialize (Esi eq_refl). destruct (RX i Hi) as [(m & E & F)|(E & N)]; rewrite E; [exists (RMatch m); split; auto; apply answer_found; auto|].
    destruct (skip_spec la true (S (S (stop c))) i Hi) as (k & K1 & K2 & K3 & K4).
    { pose proof (pos_ge c w extra textc 0 (length w)). rewrite Hs. lia. }
    rewrite K1. destruct (Nat.eqb_spec (pos i) (pos k)) as [Ep|Ep].
    + apply (pos_inj c w extra textc) in Ep; try lia. subst k. apply Adv; auto.
    + assert (Hk : i < k) by (destruct (Nat.eq_dec i k); [subst; congruence|lia]). destruct (IH k) as (res & E' & R); [lia|lia|]. exists res. split; auto.
      eapply answer_skip; [| | |exact R]; try lia.
      assert (Nx : forall d, i + d < k -> forall j, ~ Ms l (i + d) j).
      { induction d as [|d IHd]; intros Hd j; [rewrite Nat.add_0_r; apply N|]. intros A. destruct (K3 (i + d)) as (ch & A1 & A2); [lia|lia|].
        apply (IHd ltac:(lia) j). rewrite <- (mt_grp w Ss mu 0). eapply (simple_extend w Ss mu (Grp 0 l) Esi None la); eauto. rewrite mt_grp. rewrite <- Nat.add_succ_r. exact A. }
      intros i' j' A1 A2. replace i' with (i + (i' - i)) by lia. apply Nx. lia.
  - destruct (skip_spec la false (S (S (stop c))) i Hi) as (k & K1 & K2 & K3 & K4).
    { pose proof (pos_ge c w extra textc 0 (length w)). rewrite Hs. lia. }
    rewrite K1. assert (Sk : forall i' j', i <= i' -> i' < k -> ~ Ms l i' j').
    { intros i' j' A1 A2 A. destruct (LS i' j' A) as (ch & B1 & B2). destruct (K3 i' A1 A2) as (ch' & B3 & B4). rewrite (at_fun _ _ _ _ B3 B1) in B4. congruence. }
    destruct (RX k ltac:(lia)) as [(m & E & F)|(E & N)]; rewrite E.
    + exists (RMatch m). split; auto. eapply answer_skip; [| |exact Sk|apply answer_found; auto]; lia.
    + destruct (Adv k) as (res & E' & R); auto; try lia. exists res. split; auto. eapply answer_skip; [| |exact Sk|exact R]; lia.
Qed.
Theorem regexec_spec : exists N, forall fuel, N <= fuel -> exists res, regexec rx down (enc w ++ extra) (length (enc w)) fuel = Some res /\ answer 0 res.
Proof.
  destruct rex_all as (N & HN). exists N. intros fuel Hf. unfold regexec. destruct rx_fields as (Ea & _ & _). destruct (rx_anchored rx) eqn:E.
  - assert (A0 : forall i j, Ms l i j -> i = 0).
    { intros i j A. symmetry in Ea. apply orb_true_iff in Ea as [Ea|Ea].
      - eapply (anchored_start w Ss mu Bos (Grp 0 l)); eauto.
      - apply andb_true_iff in Ea as (Em & Ea). apply negb_true_iff in Em. eapply (anchored_start w Ss mu Bol (Grp 0 l)); eauto. }
    destruct (HN fuel 0 Hf ltac:(lia)) as [(m & R & F)|(R & F)]; rewrite off_0 in R; rewrite R.
    + exists (RMatch m). split; auto. apply answer_found; auto. lia.
    + exists RNone. split; auto. right. split; auto. intros i' j' _ _ A. rewrite (A0 i' j' A) in A. eapply F; eauto.
  - destruct (loop_spec fuel (fun i => HN fuel i Hf) (S (S (length (enc w)))) 0) as (res & R & F); [lia| |].
    + pose proof (length_enc_ge w wv). lia.
    + rewrite off_0 in R. exists res. split; auto.
Qed.
End Exec.
