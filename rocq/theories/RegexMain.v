(** The code generator is correct: main induction. *)
From Coq Require Import List ZArith Bool Lia.
From Verif Require Import Utf8Model Utf8Spec Utf8Proofs StringProofs SearchProofs2 RegexModel RegexSpec RegexScope RegexVm RegexDec RegexAtom RegexComp.
Import ListNotations.
Local Open Scope nat_scope.
Ltac Zify.zify_post_hook ::= idtac.
Definition le_opt (q : nat) (n : option nat) : Prop := match n with Some n' => q <= n' | None => True end.

Section Main.
Variables (c : ctx) (w extra : list Z).
Hypothesis HT : textok c w extra.
Notation pos i := (off w i).
Notation Ss := (sets c).
Notation mu := (multi c).
Notation M := (mt w Ss mu).
Notation Ms := (mts w Ss mu).
Notation C := (comp Ss mu false).
Notation seg := (seg c).
Notation decides := (decides c w).
Definition wps (l : list re) (W : nat -> Prop) (i : nat) : Prop := exists j, Ms l i j /\ W j.
(** q repetitions of l, lo <= q <= hi, then W *)
Definition wpr (l : list re) (lo : nat) (hi : option nat) (W : nat -> Prop) (i : nat) : Prop := exists q j, lo <= q /\ le_opt q hi /\ iter (Ms l) q i j /\ W j.
(** a loop over A without backtracking may stand before W: going on over A loses nothing *)
Definition goodW (A : Z -> Prop) (W : nat -> Prop) : Prop := forall i ch, at_ w i ch -> A ch -> W i -> W (S i).
Definition hi_ok (lo : nat) (hi n : option nat) : Prop :=
  match n, hi with Some n', Some h => lo <= h /\ h < n' | Some _, None => False | None, Some h => lo <= h | None, None => True end.
Fixpoint safe (r : re) (W : nat -> Prop) {struct r} : Prop :=
  let safes := fix safes (l : list re) (W : nat -> Prop) {struct l} : Prop := match l with [] => True | x :: l' => safe x (wps l' W) /\ safes l' W end in
  match r with
  | Seq l | Cased l | Grp _ l => safes l W
  | Alt l => (fix all (l : list re) : Prop := match l with [] => True | x :: l' => safe x W /\ all l' end) l
  | Look _ l => safes l (fun _ => True)
  | Rep k m n l =>
    match k, n, l with
    | While, None, [x] => match atomset c x with Some A => goodW A W | None => forall lo hi, hi_ok lo hi n -> safes l (wpr l lo hi W) end
    | _, _, _ => forall lo hi, hi_ok lo hi n -> safes l (wpr l lo hi W)
    end
  | _ => True
  end.
Definition safes := fix safes (l : list re) (W : nat -> Prop) {struct l} : Prop := match l with [] => True | x :: l' => safe x (wps l' W) /\ safes l' W end.
(** the invariant on submatches is kept by entering and leaving groups *)
Fixpoint gok (Inv : list (nat * nat) -> nat -> caps -> Prop) (r : re) (O : list (nat * nat)) {struct r} : Prop :=
  let goks := fix goks (l : list re) (O : list (nat * nat)) {struct l} : Prop := match l with [] => True | x :: l' => gok Inv x O /\ goks l' O end in
  match r with
  | Seq l | Cased l | Alt l | Rep _ _ _ l => goks l O
  | Grp g l => (forall i m, i <= length w -> Inv O i m -> Inv ((g, i) :: O) i (set_start m g (pos i))) /\
               (forall i j m, i <= length w -> Inv ((g, i) :: O) j m -> Ms l i j -> Inv O j (set_end m g (pos j))) /\ forall i, goks l ((g, i) :: O)
  | _ => True
  end.
Definition goks Inv := fix goks (l : list re) (O : list (nat * nat)) {struct l} : Prop := match l with [] => True | x :: l' => gok Inv x O /\ goks l' O end.
Lemma goks_forall Inv l O : goks Inv l O <-> Forall (fun x => gok Inv x O) l.
Proof. induction l as [|x l IH]; cbn [goks]; [split; auto|]. rewrite IH. split; [intros (A & B); auto|intros H; inversion H; auto]. Qed.
Lemma gok_nogrp Inv r : nogrp r = true -> forall O, gok Inv r O.
Proof.
  assert (X : forall l, Forall (fun r => nogrp r = true -> forall O, gok Inv r O) l -> forallb nogrp l = true -> forall O, goks Inv l O).
  { induction 1 as [|x l Hx Hl IH]; cbn [forallb]; intros E O; [exact Logic.I|]. apply andb_true_iff in E as (E1 & E2). split; [auto|apply IH; auto]. }
  induction r using re_ind'; cbn [nogrp]; intros E O; try exact Logic.I; try (apply X; auto; fail). discriminate.
Qed.
Definition SR (r : re) : Prop := forall Inv Q O pc lastp i W, invk Inv -> seg pc (C r pc lastp) -> wf Ss mu lastp r = true -> gok Inv r O -> safe r W -> i <= length w ->
  (forall j, M r i j -> decides Inv Q O (pc + size (C r pc lastp)) W j) -> decides Inv Q O pc (fun i => exists j, M r i j /\ W j) i.
Lemma len_enc_app a b : length (enc (a ++ b)) = length (enc a) + length (enc b).
Proof. rewrite enc_app, app_length. reflexivity. Qed.
Lemma len_enc_one ch : valid_char ch -> Z.of_nat (length (enc [ch])) = nbytes ch /\ (1 <= nbytes ch <= 6)%Z.
Proof.
  intros V. split; [|unfold nbytes; repeat match goal with |- context [if ?a then _ else _] => destruct a end; lia].
  unfold enc. cbn [map concat]. rewrite app_nil_r, char_put_putc by (unfold valid_char in V; lia). apply putc_length. exact V.
Qed.
Lemma valid_wf ch : ((0 <=? ch) && (ch <? 2 ^ 31))%Z = true -> valid_char ch.
Proof. intros H. apply andb_true_iff in H as (A & B). apply Z.leb_le in A. apply Z.ltb_lt in B. split; assumption. Qed.
Lemma elt_cases x : (exists ch, x = Chr ch) \/ (forall f l, elts f (x :: l) = EGen (f x) :: elts f l).
Proof. destruct x; eauto. Qed.
Lemma seq_dec l : Forall SR l -> forall run nrun pc lastp Inv Q O i W, invk Inv -> Forall valid_char run -> nrun = Z.of_nat (length (enc run)) -> (nrun <= 133)%Z ->
  seg pc (seq_items false run nrun (elts C l) pc lastp) -> wfs Ss mu lastp l = true -> goks Inv l O -> safes l W -> i <= length w ->
  (forall h j, mrun w run i h -> Ms l h j -> decides Inv Q O (pc + size (seq_items false run nrun (elts C l) pc lastp)) W j) ->
  decides Inv Q O pc (fun i => exists h, mrun w run i h /\ wps l W h) i.
Proof.
  induction 1 as [|x l Hx Hl IH]; intros run nrun pc lastp Inv Q O i W K Vr En Ln Sg Wf G Sf Hi D.
  - cbn [elts map seq_items] in *. eapply dec_iff; [|apply (emit_run_dec c w extra HT Inv Q O pc run W i); auto; [lia|]].
    + unfold wps. cbn [mts]. split; [intros (h & A & B); eauto|]. intros (h & A & j & <- & B). eauto.
    + intros j A. apply (D j j A). reflexivity.
  - cbn [wfs] in Wf. apply andb_true_iff in Wf as (Wx & Wl). cbn [goks] in G. destruct G as (Gx & Gl). cbn [safes] in Sf. destruct Sf as (Sx & Sl).
    fold (wfs Ss mu) in Wl. fold (goks Inv) in Gl. fold safes in Sl.
    destruct (elt_cases x) as [(ch & ->)|E].
    + clear Hx. cbn [wf] in Wx. apply valid_wf in Wx. destruct (len_enc_one ch Wx) as (L1 & L2).
      change (elts C (Chr ch :: l)) with (EChr ch :: elts C l) in *. cbn [seq_items] in *. unfold char_max in *. destruct (Z.ltb_spec nrun 127) as [Hlt|Hge].
      * eapply dec_iff; [|apply (IH (run ++ [ch]) (nrun + nbytes ch)%Z pc lastp Inv Q O i W); auto].
        -- unfold wps. cbn [mts mt]. split.
           ++ intros (h & A & j & B & B'). apply mrun_app in A as (h' & A1 & A2). apply mrun_one in A2 as (A2 & ->). eauto 10.
           ++ intros (h & A & j & (h2 & (A2 & ->) & B) & B'). exists (S h). split; [apply mrun_app; exists h; split; auto; apply mrun_one; auto|eauto].
        -- apply Forall_app. auto.
        -- rewrite len_enc_app. lia.
        -- lia.
        -- intros h j A B. apply mrun_app in A as (h' & A1 & A2). apply mrun_one in A2 as (A2 & ->). apply (D h' j A1). cbn [mts mt]. eauto.
      * apply seg_app in Sg as (S1 & S2). rewrite size_app in D.
        apply (emit_run_dec c w extra HT Inv Q O pc run (wps (Chr ch :: l) W) i); auto; [lia|].
        intros h A. pose proof (mrun_bound w run i h Hi A) as Hh.
        eapply dec_iff; [|apply (IH [ch] (nbytes ch) (pc + size (emit_run false run)) lastp Inv Q O h W); auto].
        -- unfold wps. cbn [mts mt]. split.
           ++ intros (h2 & A2 & j & B & B'). apply mrun_one in A2 as (A2 & ->). eauto 10.
           ++ intros (j & (h2 & (A2 & ->) & B) & B'). exists (S h). split; [apply mrun_one; auto|eauto].
        -- lia.
        -- intros h2 j A2 B. apply mrun_one in A2 as (A2 & ->). rewrite <- Nat.add_assoc. apply (D h j A). cbn [mts mt]. eauto.
    + rewrite E in *. cbn [seq_items] in *. apply seg_app in Sg as (S1 & S2). apply seg_app in S2 as (S2 & S3).
      rewrite !size_app in D. set (b := pc + size (emit_run false run)) in *.
      assert (EL : is_nil (elts C l) = is_nil l) by (destruct l; reflexivity). rewrite EL in *.
      apply (emit_run_dec c w extra HT Inv Q O pc run (wps (x :: l) W) i); auto; [lia|].
      intros h A. pose proof (mrun_bound w run i h Hi A) as Hh. fold b.
      eapply dec_iff; [|apply (Hx Inv Q O b (lastp && is_nil l) h (wps l W)); auto].
      * unfold wps. cbn [mts]. split; [intros (h2 & A2 & j & B & B'); eauto|]. intros (j & (h2 & A2 & B) & B'). eauto.
      * intros h2 A2. assert (Hh2 : h2 <= length w) by (apply (mt_range w Ss mu x h h2); auto).
        eapply dec_iff; [|apply (IH [] 0%Z (b + size (C x b (lastp && is_nil l))) lastp Inv Q O h2 W); auto].
        -- split; [intros (h3 & A3 & B); apply mrun_nil in A3; subst; exact B|]. intros B. exists h2. split; [apply mrun_nil; reflexivity|exact B].
        -- lia.
        -- intros h3 j A3 B. apply mrun_nil in A3. subst h3. rewrite <- Nat.add_assoc. unfold b at 1. rewrite <- Nat.add_assoc. apply (D h j A). cbn [mts]. eauto.
Qed.
Lemma seq_dec0 l Inv Q O pc lastp i W : Forall SR l -> invk Inv ->
  seg pc (seq_items false [] 0 (elts C l) pc lastp) -> wfs Ss mu lastp l = true -> goks Inv l O -> safes l W -> i <= length w ->
  (forall j, Ms l i j -> decides Inv Q O (pc + size (seq_items false [] 0 (elts C l) pc lastp)) W j) -> decides Inv Q O pc (wps l W) i.
Proof.
  intros Hl K Sg Wf G Sf Hi D. eapply dec_iff; [|apply (seq_dec l Hl [] 0%Z pc lastp Inv Q O i W); auto; [lia|]].
  - split; [intros (h3 & A3 & B); apply mrun_nil in A3; subst; exact B|]. intros B. exists i. split; [apply mrun_nil; reflexivity|exact B].
  - intros h j A B. apply mrun_nil in A. subst. auto.
Qed.
Lemma alt_dec l : Forall SR l -> forall pc lastp fin Inv Q O i W, invk Inv -> seg pc (alt_items (map C l) pc lastp fin) -> fin = pc + size (alt_items (map C l) pc lastp fin) ->
  forallb (wf Ss mu lastp) l = true -> goks Inv l O -> (forall x, In x l -> safe x W) -> i <= length w ->
  (forall x j, In x l -> M x i j -> decides Inv Q O fin W j) -> decides Inv Q O pc (fun i => exists x j, In x l /\ M x i j /\ W j) i.
Proof.
  induction 1 as [|x l Hx Hl IH]; intros pc lastp fin Inv Q O i W K Sg Ef Wf G Sf Hi D.
  - cbn [map alt_items] in Sg. right. split; [|intros (x & j & [] & _)]. intros m. exists m. split; [|apply keeps_refl].
    eapply runs_fail; [exact Sg|reflexivity|reflexivity].
  - cbn [forallb] in Wf. apply andb_true_iff in Wf as (Wx & Wl). destruct G as (Gx & Gl). fold (goks Inv) in Gl. destruct l as [|y l].
    + cbn [map alt_items] in *. eapply dec_iff; [|apply (Hx Inv Q O pc lastp i W); auto].
      * split; [intros (j & A & B); exists x, j; cbn; auto|]. intros (x' & j & [<-|[]] & A & B). eauto.
      * apply Sf. left. reflexivity.
      * intros j A. rewrite <- Ef. apply (D x j); cbn; auto.
    + remember (y :: l) as yl. assert (Eq : alt_items (map C (x :: yl)) pc lastp fin = OP O_TRY :: Off (pc + 3 + size (C x (pc + 3) lastp) + 3) :: C x (pc + 3) lastp ++ OP O_JUMP :: Off fin :: alt_items (map C yl) (pc + 3 + size (C x (pc + 3) lastp) + 3) lastp fin).
      { subst yl. reflexivity. }
      rewrite Eq in *. clear Eq. set (nxt := pc + 3 + size (C x (pc + 3) lastp) + 3) in *.
      pose proof Sg as S0. apply seg_B in Sg as (_ & Sg). apply seg_off in Sg as (_ & Sg). replace (S pc + 2) with (pc + 3) in Sg by lia.
      apply seg_app in Sg as (S1 & S2). pose proof S2 as S2'. apply seg_B in S2 as (_ & S2). apply seg_off in S2 as (_ & S2).
      replace (S (pc + 3 + size (C x (pc + 3) lastp)) + 2) with nxt in S2 by (unfold nxt; lia).
      rewrite !size_cons, size_app, !size_cons in Ef. cbn [isize OP] in Ef.
      eapply dec_iff; [|apply (dec_try c w Inv Q O pc nxt _ (fun i => exists j, M x i j /\ W j) (fun i => exists x j, In x yl /\ M x i j /\ W j) i K S0)].
      * split; [intros [(j & A & B)|(x' & j & I & A & B)]; [exists x, j|exists x', j]; cbn; auto|]. intros (x' & j & [<-|I] & A & B); [left|right]; eauto.
      * apply (Hx Inv Q O (pc + 3) lastp i W); auto; [apply Sf; left; reflexivity|]. intros j A. eapply dec_jump; [exact S2'|]. apply (D x j); cbn; auto.
      * apply (IH nxt lastp fin Inv Q O i W); auto; [unfold nxt in *; lia|intros; apply Sf; right; auto|]. intros x' j I A. apply (D x' j); cbn; auto.
Qed.
Lemma goodW_ext A W W' : (forall i, W i <-> W' i) -> goodW A W -> goodW A W'.
Proof. intros E H i ch A1 A2 B. apply E. eapply H; eauto. apply E. exact B. Qed.
Lemma wps_ext l W W' : (forall i, W i <-> W' i) -> forall i, wps l W i <-> wps l W' i.
Proof. intros E i. unfold wps. split; intros (j & A & B); exists j; split; auto; apply E; auto. Qed.
Lemma wpr_ext l lo hi W W' : (forall i, W i <-> W' i) -> forall i, wpr l lo hi W i <-> wpr l lo hi W' i.
Proof. intros E i. unfold wpr. split; intros (q & j & A & B & D & F); exists q, j; repeat split; auto; apply E; auto. Qed.
Lemma safe_ext r : forall W W', (forall i, W i <-> W' i) -> safe r W -> safe r W'.
Proof.
  assert (X : forall l, Forall (fun r => forall W W', (forall i, W i <-> W' i) -> safe r W -> safe r W') l -> forall W W', (forall i, W i <-> W' i) -> safes l W -> safes l W').
  { induction 1 as [|x l Hx Hl IH]; intros W W' E; cbn [safes]; auto. fold safes. intros (A & B). split; [|eapply IH; eauto]. eapply Hx; [|exact A]. apply wps_ext, E. }
  induction r using re_ind'; intros W W' E; try (cbn [safe]; auto; fail).
  - apply X; auto.
  - apply X; auto.
  - cbn [safe]. induction H as [|x l Hx Hl IH]; [auto|]. intros (A & B). split; [eapply Hx; eauto|apply IH; exact B].
  - intros S. assert (G : (forall lo hi, hi_ok lo hi n -> safes l (wpr l lo hi W)) -> (forall lo hi, hi_ok lo hi n -> safes l (wpr l lo hi W'))).
    { intros S' lo hi Hh. eapply X; [exact H| |apply S', Hh]. apply wpr_ext, E. }
    destruct k; try exact (G S). destruct n as [n'|]; [exact (G S)|]. destruct l as [|x l]; [exact (G S)|]. destruct l; [|exact (G S)].
    cbn [safe] in *. destruct (atomset c x); [|exact (G S)]. eapply goodW_ext; eauto.
  - apply X; auto.
Qed.
Lemma safes_ext l W W' : (forall i, W i <-> W' i) -> safes l W -> safes l W'.
Proof.
  revert W W'. induction l as [|x l IH]; intros W W' E; cbn [safes]; auto. fold safes. intros (A & B). split; [|eapply IH; eauto]. eapply safe_ext; [|exact A]. apply wps_ext, E.
Qed.
Lemma wps_app a b W i : wps (a ++ b) W i <-> wps a (wps b W) i.
Proof. unfold wps. split; [intros (j & P & S); apply mts_app in P as (h & P & R); eauto|]. intros (h & P & j & R & S). exists j. split; auto. apply mts_app. eauto. Qed.
Lemma safes_app a b W : safes (a ++ b) W <-> safes a (wps b W) /\ safes b W.
Proof.
  induction a as [|x a IH]; cbn [app safes]; [tauto|]. fold safes. rewrite IH. split.
  - intros (A & B & D). repeat split; auto. eapply safe_ext; [|exact A]. intros i. apply wps_app.
  - intros ((A & B) & D). repeat split; auto. eapply safe_ext; [|exact A]. intros i. symmetry. apply wps_app.
Qed.
Definition wpi (l : list re) (q : nat) (W : nat -> Prop) (i : nat) : Prop := exists j, iter (Ms l) q i j /\ W j.
Lemma wps_repeat l m W i : wps (concat (repeat l m)) W i <-> wpi l m W i.
Proof. unfold wps, wpi. split; intros (j & A & B); exists j; split; auto; apply mts_repeat; auto. Qed.
Lemma safes_repeat l m W : (forall q, q < m -> safes l (wpi l q W)) -> safes (concat (repeat l m)) W.
Proof.
  induction m as [|m IH]; intros H; cbn [repeat concat]; [exact Logic.I|]. apply safes_app. split; [|apply IH; auto].
  eapply safes_ext; [|apply (H m); lia]. intros i. symmetry. apply wps_repeat.
Qed.
Lemma elts_repeat (f : re -> gen) l m : concat (repeat (elts f l) m) = elts f (concat (repeat l m)).
Proof. induction m; cbn [repeat concat]; [reflexivity|]. unfold elts in *. rewrite map_app, IHm. reflexivity. Qed.
Lemma Forall_repeat {A} (P : A -> Prop) l m : Forall P l -> Forall P (concat (repeat l m)).
Proof. intros H. induction m; cbn; auto. apply Forall_app. auto. Qed.
Lemma forallb_repeat {A} (f : A -> bool) l m : forallb f l = true -> forallb f (concat (repeat l m)) = true.
Proof. intros H. induction m; cbn; auto. rewrite forallb_app, H, IHm. reflexivity. Qed.
Lemma iter_bound l q i j : i <= length w -> iter (Ms l) q i j -> i <= j <= length w.
Proof. apply iter_range. intros; eapply mts_range; eauto. Qed.
Section Loop.
Variables (l : list re) (Inv : list (nat * nat) -> nat -> caps -> Prop) (Q : caps -> Prop) (O : list (nat * nat)) (W : nat -> Prop).
Hypotheses (Hl : Forall SR l) (K : invk Inv) (Wf : forallb (wf Ss mu false) l = true) (G : goks Inv l O).
Notation body := (seq_items false [] 0 (elts C l)).
Lemma SB : sz body.
Proof. intros b b' lp. apply size_seq, szel_elts. apply Forall_forall. intros; apply size_base. Qed.
Lemma star_dec g base i : (safes l (wpr l 0 None W)) -> forallb nullable l = false -> seg base (star_items g body base) -> i <= length w ->
  (forall j, wpr l 0 None (fun j' => j' = j) i -> decides Inv Q O (base + size (star_items g body base)) W j) -> decides Inv Q O base (wpr l 0 None W) i.
Proof.
  intros Sf Nu Sg. remember (length w - i) as d eqn:Ed. revert i Ed. induction d as [d IH] using (well_founded_induction Wf_nat.lt_wf); intros i Ed Hi D.
  assert (Body : forall b, seg b (body b false) -> seg (b + size (body b false)) [OP O_JUMP; Off base] -> decides Inv Q O b (wps l (wpr l 0 None W)) i).
  { intros b S1 S2. apply seq_dec0 with (lastp := false); auto.
    - apply wfs_all. exact Wf.
    - intros h A. pose proof (mts_range _ _ _ _ _ _ Hi A). pose proof (mts_consumes _ _ _ _ _ _ Hi Nu A). eapply dec_jump; [exact S2|].
      apply (IH (length w - h)); try lia. intros j (q & j' & _ & _ & B & ->). apply D. exists (S q), j. cbn [iter]. repeat split; auto; [lia|eauto]. }
  assert (Next : decides Inv Q O (base + size (star_items g body base)) W i).
  { apply D. exists 0, i. cbn. auto. }
  assert (Iff : forall i, (wps l (wpr l 0 None W) i \/ W i) <-> wpr l 0 None W i).
  { intros k. unfold wps, wpr. split.
    - intros [(h & A & q & j & _ & _ & B & B')|B]; [exists (S q), j|exists 0, k]; cbn [iter le_opt]; repeat split; eauto; lia.
    - intros (q & j & _ & _ & B & B'). destruct q as [|q]; cbn [iter] in B; [right; subst; auto|left]. destruct B as (h & A & B). exists h. split; auto. exists q, j. cbn. repeat split; auto. lia. }
  unfold star_items in *. destruct g.
  - set (b := body (base + 3) false) in *. pose proof Sg as S0. apply seg_B in Sg as (_ & Sg). apply seg_off in Sg as (_ & Sg). replace (S base + 2) with (base + 3) in Sg by lia.
    apply seg_app in Sg as (S1 & S2). apply dec_iff with (W := fun i => wps l (wpr l 0 None W) i \/ W i); [apply Iff|]. eapply dec_try; [exact K|exact S0|apply Body; auto|].
    rewrite !size_cons, size_app in Next. cbn [isize OP size fold_right] in Next. replace (base + 3 + size b + 3) with (base + (1 + (2 + (size b + (1 + (2 + 0)))))) by lia. exact Next.
  - set (b := body (base + 6) false) in *. pose proof Sg as S0. apply seg_B in Sg as (_ & Sg). apply seg_off in Sg as (_ & Sg). replace (S base + 2) with (base + 3) in Sg by lia.
    pose proof Sg as SJ. apply seg_B in Sg as (_ & Sg). apply seg_off in Sg as (_ & Sg). replace (S (base + 3) + 2) with (base + 6) in Sg by lia.
    apply seg_app in Sg as (S1 & S2). apply dec_iff with (W := fun i => W i \/ wps l (wpr l 0 None W) i); [rewrite <- Iff; tauto|].
    apply (dec_try c w Inv Q O base (base + 6) _ W (wps l (wpr l 0 None W)) i K S0).
    + eapply dec_jump; [exact SJ|]. rewrite !size_cons, size_app in Next. cbn [isize OP size fold_right] in Next.
      replace (base + 6 + size b + 3) with (base + (1 + (2 + (1 + (2 + (size b + (1 + (2 + 0)))))))) by lia. exact Next.
    + apply Body; auto.
Qed.
Lemma copies_dec n : forall base i, (forall q, q < n -> safes l (wpi l q W)) -> seg base (copies body n base) -> i <= length w ->
  (forall j, iter (Ms l) n i j -> decides Inv Q O (base + n * size (body 0 false)) W j) -> decides Inv Q O base (wpi l n W) i.
Proof.
  induction n as [|n IH]; intros base i Sf Sg Hi D.
  - eapply dec_iff; [|specialize (D i eq_refl); cbn [Nat.mul] in D; rewrite Nat.add_0_r in D; exact D].
    unfold wpi. cbn [iter]. split; [intros; exists i; auto|intros (j & <- & B); exact B].
  - cbn [copies] in Sg. apply seg_app in Sg as (S1 & S2). rewrite (SB base 0) in S2. 
    eapply dec_iff; [|apply (seq_dec0 l Inv Q O base false i (wpi l n W)); auto].
    + unfold wps, wpi. cbn [iter]. split; [intros (h & A & j & B & B'); eauto|intros (j & (h & A & B) & B'); eauto].
    + apply wfs_all, Wf.
    + intros h A. rewrite (SB base 0). pose proof (mts_range _ _ _ _ _ _ Hi A). apply IH; auto; [lia|].
      intros j B. rewrite <- Nat.add_assoc. replace (size (body 0 false) + n * size (body 0 false)) with (S n * size (body 0 false)) by lia. apply D. cbn [iter]. eauto.
Qed.
Lemma copies_split n k base : k <= n -> copies body n base = copies body k base ++ copies body (n - k) (base + k * size (body 0 false)).
Proof.
  revert n base. induction k as [|k IH]; intros n base H.
  - cbn [copies app Nat.mul]. rewrite Nat.sub_0_r, Nat.add_0_r. reflexivity.
  - destruct n as [|n]; [lia|]. cbn [copies]. rewrite (IH n _) by lia. rewrite <- app_assoc. do 3 f_equal. rewrite (SB base 0). lia.
Qed.
Lemma pairs_dec target (T : nat -> Prop) (Wk : nat -> nat -> Prop) left : forall base k i, seg base (pairs base k target left) -> decides Inv Q O (base + 6 * left) T i ->
  (forall q, k <= q -> q < k + left -> decides Inv Q O (target q) (Wk q) i) -> decides Inv Q O base (fun i => (exists q, k <= q /\ q < k + left /\ Wk q i) \/ T i) i.
Proof.
  induction left as [|left IH]; intros base k i Sg DT DW.
  - rewrite Nat.mul_0_r, Nat.add_0_r in DT. eapply dec_iff; [|exact DT]. split; auto. intros [(q & A & B & _)|B]; [lia|auto].
  - cbn [pairs] in Sg. pose proof Sg as S0. apply seg_B in Sg as (_ & Sg). apply seg_off in Sg as (_ & Sg). replace (S base + 2) with (base + 3) in Sg by lia.
    pose proof Sg as SJ. apply seg_B in Sg as (_ & Sg). apply seg_off in Sg as (_ & Sg). replace (S (base + 3) + 2) with (base + 6) in Sg by lia.
    eapply dec_iff; [|eapply (dec_try c w Inv Q O base (base + 6) _ (Wk k) _ i K S0); [eapply dec_jump; [exact SJ|apply DW; lia]|apply (IH (base + 6) (S k) i Sg)]].
    + split.
      * intros [A|[(q & A & B & D)|A]]; [left; exists k|left; exists q|auto]; repeat split; auto; lia.
      * intros [(q & A & B & D)|A]; [|auto]. destruct (Nat.eq_dec q k) as [->|]; [auto|]. right. left. exists q. repeat split; auto; lia.
    + replace (base + 6 + 6 * left) with (base + 6 * S left) by lia. exact DT.
    + intros q A B. apply DW; lia.
Qed.
Lemma minmax_dec g count base i : (forall q, q < count -> safes l (wpi l q W)) -> seg base (minmax_items g count body base) -> i <= length w ->
  (forall q j, q <= count -> iter (Ms l) q i j -> decides Inv Q O (base + size (minmax_items g count body base)) W j) -> decides Inv Q O base (wpr l 0 (Some count) W) i.
Proof.
  intros Sf Sg Hi D. set (s := size (body 0 false)) in *.
  assert (Cp : forall c0 k, seg c0 (copies body count c0) -> c0 + count * s = base + size (minmax_items g count body base) -> k <= count -> decides Inv Q O (c0 + k * s) (wpi l (count - k) W) i).
  { intros c0 k S1 E Hk. rewrite (copies_split count k) in S1 by assumption. apply seg_app in S1 as (_ & S1). rewrite (size_copies _ _ SB) in S1. fold s in S1.
    apply copies_dec; auto; [intros; apply Sf; lia|]. intros j A. fold s. replace (c0 + k * s + (count - k) * s) with (base + size (minmax_items g count body base)).
    - apply (D (count - k)); auto. lia.
    - rewrite <- E. rewrite <- Nat.add_assoc, <- Nat.mul_add_distr_r. f_equal. f_equal. lia. }
  assert (EQ : forall i, (exists q, q <= count /\ wpi l q W i) <-> wpr l 0 (Some count) W i).
  { intros k. unfold wpi, wpr. cbn [le_opt]. split; [intros (q & A & j & B & B'); exists q, j; repeat split; auto; lia|intros (q & j & _ & A & B & B'); eauto]. }
  unfold minmax_items in *. fold s in Sg, Cp, D. destruct g.
  - set (c0 := base + 6 * count + 3) in *. apply seg_app in Sg as (S1 & S2). rewrite size_pairs6 in S2. change ([OP O_JUMP; Off (c0 + count * s)] ++ copies body count c0) with (OP O_JUMP :: Off (c0 + count * s) :: copies body count c0) in S2.
    pose proof S2 as SJ. apply seg_B in S2 as (_ & S2). apply seg_off in S2 as (_ & S2). replace (S (base + 6 * count) + 2) with c0 in S2 by (unfold c0; lia).
    assert (Ec : c0 + count * s = base + size (pairs base 0 (fun k => c0 + k * s) count ++ [OP O_JUMP; Off (c0 + count * s)] ++ copies body count c0)).
    { rewrite !size_app, size_pairs6, (size_copies _ _ SB), !size_cons. cbn [isize OP size fold_right]. fold s. unfold c0. lia. }
    apply dec_iff with (W := fun i => exists q, q <= count /\ wpi l q W i); [apply EQ|]. eapply dec_iff; [|apply (pairs_dec (fun k => c0 + k * s) W (fun k => wpi l (count - k) W) count base 0 i S1)].
    + split.
      * intros [(q & A & B & E)|A]; [exists (count - q); split; [lia|exact E]|]. exists 0. split; [lia|]. exists i. cbn. auto.
      * intros (q & A & E). destruct q as [|q]; [right; destruct E as (j & <- & E); exact E|]. left. exists (count - S q). repeat split; try lia. replace (count - (count - S q)) with (S q) by lia. exact E.
    + eapply dec_jump; [exact SJ|]. pose proof (Cp c0 count S2 Ec ltac:(lia)) as X. rewrite Nat.sub_diag in X. eapply dec_iff; [|exact X].
      unfold wpi. cbn [iter]. split; [intros (j & <- & B); exact B|eauto].
    + intros q A B. apply Cp; auto. lia.
  - set (c0 := base + 6 * count + 6) in *. apply seg_app in Sg as (S1 & S2). rewrite size_pairs6 in S2.
    change ([OP O_TRY; Off c0; OP O_JUMP; Off (c0 + (count - count) * s)] ++ copies body count c0) with (OP O_TRY :: Off c0 :: OP O_JUMP :: Off (c0 + (count - count) * s) :: copies body count c0) in S2.
    pose proof S2 as S3. apply seg_B in S2 as (_ & S2). apply seg_off in S2 as (_ & S2). replace (S (base + 6 * count) + 2) with (base + 6 * count + 3) in S2 by lia.
    pose proof S2 as SJ. apply seg_B in S2 as (_ & S2). apply seg_off in S2 as (_ & S2). replace (S (base + 6 * count + 3) + 2) with c0 in S2 by (unfold c0; lia).
    assert (Ec : c0 + count * s = base + size (pairs base 0 (fun k => c0 + (count - k) * s) count ++ [OP O_TRY; Off c0; OP O_JUMP; Off (c0 + (count - count) * s)] ++ copies body count c0)).
    { rewrite !size_app, size_pairs6, (size_copies _ _ SB), !size_cons. cbn [isize OP size fold_right]. fold s. unfold c0. lia. }
    pose proof (Cp c0 0 S2 Ec ltac:(lia)) as X0. cbn [Nat.mul] in X0. rewrite Nat.add_0_r, Nat.sub_0_r in X0.
    apply dec_iff with (W := fun i => exists q, q <= count /\ wpi l q W i); [apply EQ|]. eapply dec_iff; [|apply (pairs_dec (fun k => c0 + (count - k) * s) (wpi l count W) (fun k => wpi l k W) count base 0 i S1)].
    + split.
      * intros [(q & A & B & E)|E]; [exists q|exists count]; split; auto; lia.
      * intros (q & A & E). destruct (Nat.eq_dec q count) as [->|]; [auto|]. left. exists q. repeat split; auto; lia.
    + eapply dec_iff; [|eapply (dec_try c w Inv Q O _ c0 _ (wpi l count W) (wpi l count W) i K S3); [|exact X0]]; [tauto|].
      eapply dec_jump; [exact SJ|]. replace (c0 + (count - count) * s) with c0 by lia. exact X0.
    + intros q A B. pose proof (Cp c0 (count - q) S2 Ec ltac:(lia)) as X. replace (count - (count - q)) with q in X by lia. exact X.
Qed.
End Loop.
Lemma head_dec l m Inv Q O pc lp i W : Forall SR l -> invk Inv -> forallb (wf Ss mu false) l = true -> goks Inv l O -> (forall q, q < m -> safes l (wpi l q W)) ->
  seg pc (seq_items false [] 0 (concat (repeat (elts C l) m)) pc lp) -> i <= length w ->
  (forall j, iter (Ms l) m i j -> decides Inv Q O (pc + size (seq_items false [] 0 (concat (repeat (elts C l) m)) pc lp)) W j) -> decides Inv Q O pc (wpi l m W) i.
Proof.
  intros Hl K Wf G Sf Sg Hi D. rewrite elts_repeat in *. eapply dec_iff; [|apply (seq_dec0 (concat (repeat l m)) Inv Q O pc lp i W); auto].
  - apply wps_repeat.
  - apply Forall_repeat, Hl.
  - apply wfs_all, forallb_repeat, Wf.
  - apply goks_forall, Forall_repeat, goks_forall, G.
  - apply safes_repeat, Sf.
  - intros j A. apply D. apply mts_repeat, A.
Qed.
Lemma while_dec x A Inv Q O pc W i : invk Inv -> atomset c x = Some A -> atom_wf c x -> goodW A W -> seg pc (loop_code c x) -> i <= length w ->
  (forall j, isrun w A i j -> j <= length w -> decides Inv Q O (pc + size (loop_code c x)) W j) ->
  decides Inv Q O pc (fun i => exists j, isrun w A i j /\ W j) i.
Proof.
  intros K EA Wx Gd Sg Hi D. destruct (while_run c w extra HT x A pc i EA Wx Sg Hi) as (o & l & j & El & P & Hj & (R1 & R2) & St & Ex).
  rewrite El in Sg.
  assert (up : forall j0, isrun w A i j0 -> W j0 -> W j).
  { intros j0 (B1 & B2) Wj. assert (L : j0 <= j).
    { destruct (le_lt_dec j0 j); auto. destruct (B2 j R1 l0) as (ch & A1 & A2). destruct (St ch A1 A2). }
    clear - Gd R2 L Wj B1. induction L as [|j L IH]; auto. destruct (R2 j) as (ch & A1 & A2); [lia|lia|]. eapply Gd; eauto. }
  destruct (D j) as [(Wn & B)|(F & B)]; [split; auto|exact Hj| |].
  - left. split; [|exists j; split; [split; auto|auto]]. intros m I. destruct (Wn m (proj2 K O i j m R1 I)) as (q & m' & R & Hq). exists q, m'. split; [|exact Hq]. eapply runs_go; [exact Sg|exact P|exact Ex|exact R].
  - right. split; [|intros (j0 & A1 & A2); apply B; eauto]. intros m. destruct (F m) as (m' & R & Kp). exists m'. split; [|exact Kp]. eapply runs_go; [exact Sg|exact P|exact Ex|exact R].
Qed.
Lemma atom_iter x A : atomset c x = Some A -> forall q i j, iter (Ms [x]) q i j <-> isrun w A i j /\ j = i + q.
Proof.
  intros EA. assert (One : forall i j, M x i j <-> exists ch, at_ w i ch /\ A ch /\ j = S i).
  { destruct x; cbn [atomset] in EA; try discriminate; injection EA as <-; intros i j; cbn [mt].
    - split; [intros (B & ->); eauto|intros (ch & B & -> & ->); auto].
    - reflexivity.
    - reflexivity.
    - split; [intros (ch & B & ->); eauto 10|intros (ch & B & _ & ->); eauto]. }
  induction q as [|q IH]; intros i j; cbn [iter].
  - split; [intros <-; split; [split; [lia|intros; lia]|lia]|intros (_ & ->); lia].
  - split.
    + intros (h & B & D). apply mts_one in B. apply One in B as (ch & B1 & B2 & ->). apply IH in D as ((D1 & D2) & ->). split; [|lia]. split; [lia|].
      intros k K1 K2. destruct (Nat.eq_dec k i) as [->|]; [eauto|apply D2; lia].
    + intros ((B1 & B2) & ->). exists (S i). split; [apply mts_one, One; destruct (B2 i) as (ch & X & Y); [lia|lia|eauto]|]. apply IH. split; [|lia]. split; [lia|]. intros k K1 K2. apply B2; lia.
Qed.
Lemma wf_atom lastp x A : atomset c x = Some A -> wf Ss mu lastp x = true -> atom_wf c x.
Proof.
  destruct x; cbn [atomset]; try discriminate; intros _; cbn [wf atom_wf]; auto; [apply valid_wf| |]; intros H; apply andb_true_iff in H as (X & Y); apply Nat.ltb_lt in X; auto.
Qed.
Theorem comp_correct r : SR r.
Proof.
  assert (AT : forall o l R Inv Q O pc i W, seg pc (OP o :: l) -> plain o = true -> atom_dec c w o pc (pc + size (OP o :: l)) R i -> (forall j, R j -> decides Inv Q O (pc + size (OP o :: l)) W j) -> invk Inv -> (forall j, R j -> i <= j) -> decides Inv Q O pc (fun _ => exists j, R j /\ W j) i).
  { intros o l R Inv Q O pc i W Sg P A D K Hle. eapply dec_atom; eauto. }
  induction r using re_ind'; intros Inv Q O pc lastp i W K Sg Wf G Sf Hi D.
  - cbn [comp] in *. eapply dec_iff; [|apply (emit_run_dec c w extra HT Inv Q O pc [c0] W i); auto].
    + cbn [mt]. split; intros (j & A & B); exists j; split; auto; apply mrun_one; auto.
    + constructor; auto. cbn [wf] in Wf. apply valid_wf, Wf.
    + cbn [wf] in Wf. apply valid_wf in Wf. destruct (len_enc_one c0 Wf). lia.
    + intros j A. apply D. cbn [mt]. apply mrun_one. exact A.
  - cbn [comp] in *. cbn [wf] in Wf. apply andb_true_iff in Wf as (W1 & W2). apply Nat.ltb_lt in W1. pose proof (proj2 (seg_B _ _ _ _ Sg)) as S2.
    eapply AT; [exact Sg|destruct (large _); reflexivity| |exact D|exact K|intros j A; eapply (mt_range w Ss mu _ i j Hi A)]. replace (pc + size _) with (pc + 2) by (cbn; lia). eapply set_atom; eauto.
  - cbn [comp] in *. cbn [wf] in Wf. apply andb_true_iff in Wf as (W1 & W2). apply Nat.ltb_lt in W1. pose proof (proj2 (seg_B _ _ _ _ Sg)) as S2.
    eapply AT; [exact Sg|destruct (large _); reflexivity| |exact D|exact K|intros j A; eapply (mt_range w Ss mu _ i j Hi A)]. replace (pc + size _) with (pc + 2) by (cbn; lia). eapply comp_atom; eauto.
  - cbn [comp] in *. eapply AT; [exact Sg|reflexivity| |exact D|exact K|intros j A; eapply (mt_range w Ss mu _ i j Hi A)]. replace (pc + size _) with (S pc) by (cbn; lia). eapply any_atom; eauto.
  - cbn [comp] in *. eapply AT; [exact Sg|reflexivity| |exact D|exact K|intros j A; eapply (mt_range w Ss mu _ i j Hi A)]. replace (pc + size _) with (S pc) by (cbn; lia). eapply bos_atom; eauto.
  - cbn [comp] in *. eapply AT; [exact Sg|reflexivity| |exact D|exact K|intros j A; eapply (mt_range w Ss mu _ i j Hi A)]. replace (pc + size _) with (S pc) by (cbn; lia). eapply eos_atom; eauto.
  - cbn [comp] in *. eapply AT; [exact Sg|reflexivity| |exact D|exact K|intros j A; eapply (mt_range w Ss mu _ i j Hi A)]. replace (pc + size _) with (S pc) by (cbn; lia). eapply bol_atom; eauto.
  - cbn [comp] in *. cbn [wf] in Wf. rewrite orb_comm in Wf. rewrite Wf in *. eapply AT; [exact Sg|reflexivity| |exact D|exact K|intros j A; eapply (mt_range w Ss mu _ i j Hi A)]. replace (pc + size _) with (S pc) by (cbn; lia). eapply eol_atom; eauto.
  - cbn [comp] in *. eapply AT; [exact Sg|reflexivity| |exact D|exact K|intros j A; eapply (mt_range w Ss mu _ i j Hi A)]. replace (pc + size _) with (S pc) by (cbn; lia). eapply wb_atom; eauto.
  - cbn [comp] in *. eapply AT; [exact Sg|reflexivity| |exact D|exact K|intros j A; eapply (mt_range w Ss mu _ i j Hi A)]. replace (pc + size _) with (S pc) by (cbn; lia). eapply nwb_atom; eauto.
  - cbn [comp] in *. apply (seq_dec0 l Inv Q O pc lastp i W); auto.
  - discriminate.
  - cbn [comp] in *. apply (seq_dec0 l Inv Q O pc lastp i W); auto.
  - cbn [comp] in *. cbn [wf] in Wf. rewrite (size_alt _ pc lastp _ 0) in D.
    set (fin := pc + size (alt_items (map C l) pc lastp 0)) in *.
    eapply dec_iff; [|apply (alt_dec l H pc lastp fin Inv Q O i W); auto].
    + split; [intros (x & j & A & B & E); exists j; rewrite mt_alt; eauto|intros (j & A & B); rewrite mt_alt in A; destruct A as (x & A & E); eauto].
    + unfold fin at 1. rewrite (size_alt _ pc lastp 0 fin). reflexivity.
    + cbn [safe] in Sf. clear - Sf. induction l as [|y l IH]; [intros x []|]. destruct Sf as (A & B). intros x [<-|I]; auto.
    + intros x j I A. apply D. rewrite mt_alt. eauto.
  - cbn [wf] in Wf. apply andb_true_iff in Wf as (Wl & Wn). cbn [gok] in G. change (goks Inv l O) in G.
    assert (General : forall g, (forall lo hi, hi_ok lo hi n -> safes l (wpr l lo hi W)) ->
      (n = None -> forallb nullable l = false) ->
      let its := (let multip := match n with None => true | Some n' => (1 <? Z.of_nat n')%Z end in
        let head := seq_items false [] 0 (concat (repeat (elts C l) m)) pc multip in
        let b := (pc + size head)%nat in
        match n with
        | Some n' => if Nat.eqb m n' then head else head ++ minmax_items g (n' - m) (seq_items false [] 0 (elts C l)) b
        | None => head ++ star_items g (seq_items false [] 0 (elts C l)) b
        end) in seg pc its -> (forall j, M (Rep k m n l) i j -> decides Inv Q O (pc + size its) W j) -> decides Inv Q O pc (fun i => exists j, M (Rep k m n l) i j /\ W j) i).
    { intros g Sf' Nu. cbv zeta. destruct n as [n'|].
      - apply Nat.leb_le in Wn. destruct (Nat.eqb_spec m n') as [<-|Ne].
        + intros Sg' D'. eapply dec_iff; [|eapply (head_dec l m Inv Q O pc _ i W); eauto].
          * unfold wpi. split; [intros (j & A & B); exists j; rewrite mt_rep; eauto|]. intros (j & A & B). rewrite mt_rep in A. destruct A as (q & A1 & A2 & A). replace q with m in A by lia. eauto.
          * intros q Hq. eapply safes_ext; [|apply (Sf' q (Some q)); cbn; lia]. intros k0. unfold wpr, wpi. cbn [le_opt]. split; [intros (q' & j & A1 & A2 & A & B); replace q' with q in A by lia; eauto|intros (j & A & B); exists q, j; auto].
          * intros j A. apply D'. rewrite mt_rep. eauto.
        + intros Sg' D'. apply seg_app in Sg' as (S1 & S2). rewrite size_app in D'. rewrite Nat.add_assoc in D'.
          set (b := pc + size (seq_items false [] 0 (concat (repeat (elts C l) m)) pc (1 <? Z.of_nat n')%Z)) in *.
          eapply dec_iff; [|eapply (head_dec l m Inv Q O pc _ i (wpr l 0 (Some (n' - m)) W)); eauto].
          * unfold wpi, wpr. cbn [le_opt]. split.
            -- intros (h & A & q & j & _ & L & B & B'). exists j. rewrite mt_rep. split; auto. exists (m + q). repeat split; try lia. apply iter_app. eauto.
            -- intros (j & A & B). rewrite mt_rep in A. destruct A as (q & A1 & A2 & A). replace q with (m + (q - m)) in A by lia. apply iter_app in A as (h & A & A'). exists h. split; auto. exists (q - m), j. repeat split; auto; lia.
          * intros q Hq. eapply safes_ext; [|apply (Sf' q (Some (q + (n' - m)))); cbn; lia]. intros k0. unfold wpr, wpi. cbn [le_opt]. split.
            -- intros (q' & j & A1 & A2 & A & B). replace q' with (q + (q' - q)) in A by lia. apply iter_app in A as (h & A & A'). exists h. split; auto. exists (q' - q), j. repeat split; auto; lia.
            -- intros (h & A & q' & j & _ & L & B & B'). exists (q + q'), j. repeat split; try lia; auto. apply iter_app. eauto.
          * intros h A. fold b. apply iter_bound in A as Hh; [|exact Hi]. apply (minmax_dec l Inv Q O W) with (g := g); auto; [|lia|].
            -- intros q Hq. eapply safes_ext; [|apply (Sf' q (Some q)); cbn; lia]. intros k0. unfold wpr, wpi. cbn [le_opt]. split; [intros (q' & j & A1 & A2 & A' & B); replace q' with q in A' by lia; eauto|intros (j & A' & B); exists q, j; auto].
            -- intros q j Hq B. apply D'. rewrite mt_rep. exists (m + q). repeat split; try lia. apply iter_app. eauto.
      - intros Sg' D'. apply seg_app in Sg' as (S1 & S2). rewrite size_app in D'. rewrite Nat.add_assoc in D'.
        set (b := pc + size (seq_items false [] 0 (concat (repeat (elts C l) m)) pc true)) in *.
        eapply dec_iff; [|eapply (head_dec l m Inv Q O pc _ i (wpr l 0 None W)); eauto].
        * unfold wpi, wpr. cbn [le_opt]. split.
          -- intros (h & A & q & j & _ & L & B & B'). exists j. rewrite mt_rep. split; auto. exists (m + q). repeat split; try lia. apply iter_app. eauto.
          -- intros (j & A & B). rewrite mt_rep in A. destruct A as (q & A1 & A2 & A). replace q with (m + (q - m)) in A by lia. apply iter_app in A as (h & A & A'). exists h. split; auto. exists (q - m), j. repeat split; auto; lia.
        * intros q Hq. eapply safes_ext; [|apply (Sf' q None); cbn; auto]. intros k0. unfold wpr, wpi. cbn [le_opt]. split.
          -- intros (q' & j & A1 & A2 & A & B). replace q' with (q + (q' - q)) in A by lia. apply iter_app in A as (h & A & A'). exists h. split; auto. exists (q' - q), j. repeat split; auto; lia.
          -- intros (h & A & q' & j & _ & L & B & B'). exists (q + q'), j. repeat split; try lia; auto. apply iter_app. eauto.
        * intros h A. fold b. apply iter_bound in A as Hh; [|exact Hi]. apply (star_dec l Inv Q O W) with (g := g); auto; [apply (Sf' 0 None); cbn; auto|lia|].
          intros j (q & j' & _ & _ & B & ->). apply D'. rewrite mt_rep. exists (m + q). repeat split; try lia. apply iter_app. eauto. }
    assert (Nu : n = None -> forallb nullable l = false) by (intros ->; apply negb_true_iff; exact Wn).
    destruct k; try (cbn [comp] in Sg, D; exact (General _ Sf Nu Sg D)).
    destruct n as [n'|]; [cbn [comp] in Sg, D; exact (General true Sf Nu Sg D)|].
    destruct l as [|x l]; [cbn [comp] in Sg, D; exact (General true Sf Nu Sg D)|].
    destruct l as [|y l]; [|cbn [comp] in Sg, D; exact (General true Sf Nu Sg D)].
    cbn [safe] in Sf. cbn [comp] in Sg, D.
    destruct (atomset c x) as [A|] eqn:EA.
    + assert (Ew : while_items Ss x = Some (loop_code c x)) by (unfold loop_code; destruct x; try discriminate; reflexivity). rewrite Ew in *.
      assert (Wx : atom_wf c x). { cbn [forallb] in Wl. apply andb_true_iff in Wl as (Wl & _). eapply wf_atom; eauto. }
      apply seg_app in Sg as (S1 & S2). rewrite size_app, Nat.add_assoc in D.
      eapply dec_iff; [|eapply (head_dec [x] m Inv Q O pc false i (fun i => exists j, isrun w A i j /\ W j)); eauto].
      * unfold wpi. split.
        -- intros (h & B & j & R & B'). exists j. rewrite mt_rep. split; auto. exists (m + (j - h)). repeat split; try lia. apply iter_app. exists h. split; auto. apply (atom_iter x A EA). split; auto. destruct R. lia.
        -- intros (j & B & B'). rewrite mt_rep in B. destruct B as (q & B1 & _ & B). replace q with (m + (q - m)) in B by lia. apply iter_app in B as (h & B & B2). apply (atom_iter x A EA) in B2 as (B2 & _). exists h. eauto.
      * intros q Hq. destruct x; try discriminate; cbn; auto.
      * intros h B. apply iter_bound in B as Hh; [|exact Hi]. apply while_dec with (x := x); auto; [lia|].
        intros j R Hj. apply D. rewrite mt_rep. exists (m + (j - h)). repeat split; try lia. apply iter_app. exists h. split; auto. apply (atom_iter x A EA). split; auto. destruct R. lia.
    + assert (Ew : while_items Ss x = None) by (destruct x; try discriminate; reflexivity). rewrite Ew in *. exact (General true Sf Nu Sg D).
  - cbn [comp] in *. cbn [wf] in Wf. apply andb_true_iff in Wf as (Wg & Wl). apply Nat.ltb_lt in Wg. cbn [gok] in G. destruct G as (G1 & G2 & G3).
    pose proof Sg as S0. apply seg_B in Sg as (_ & Sg). apply seg_B in Sg as (_ & Sg). replace (S (S pc)) with (pc + 2) in Sg by lia. apply seg_app in Sg as (S1 & S2).
    rewrite !size_cons, size_app in D. cbn [isize OP] in D.
    eapply (dec_begin c w Inv Q O pc g _ _ i Wg S0); [intros m; apply G1; exact Hi|].
    apply (seq_dec0 l Inv Q ((g, i) :: O) (pc + 2) lastp i W); auto; [apply G3|].
    intros j A. eapply (dec_end c w Inv Q O i _ g _ W j Wg S2); [intros m I; eapply G2; eauto|].
    specialize (D j A). replace (pc + 2 + size _ + 2) with (pc + (1 + (1 + (size (seq_items false [] 0 (elts C l) (pc + 2) lastp) + size [OP O_END; B (Z.of_nat g)])))) by (rewrite !size_cons; cbn [isize OP size fold_right]; lia). exact D.
  - discriminate.
  - cbn [comp] in *. cbn [wf] in Wf. apply andb_true_iff in Wf as (Wl & Wg).
    set (bd := seq_items false [] 0 (elts C l) (pc + 3) true) in *.
    pose proof Sg as S0. apply seg_B in Sg as (_ & Sg). apply seg_off in Sg as (_ & Sg). replace (S pc + 2) with (pc + 3) in Sg by lia. apply seg_app in Sg as (S1 & S2).
    rewrite !size_cons, size_app in D. cbn [isize OP] in D.
    eapply dec_iff; [|apply (dec_look c w Inv Q O b pc (pc + 3 + size bd + 1) _ (fun i => exists h, Ms l i h) W i K S0)].
    + split.
      * intros (A & B). exists i. split; auto. rewrite mt_look. auto.
      * intros (j & A & B). rewrite mt_look in A. destruct A as (A & ->). auto.
    + intros m0. eapply dec_iff; [|apply (seq_dec0 l (inv0 m0) (fun m => forall g, m g = m0 g) [] (pc + 3) true i (fun _ => True)); auto].
      * unfold wps. split; [intros (j & A & _); eauto|intros (j & A); eauto].
      * apply inv0_k.
      * apply goks_forall. rewrite forallb_forall in Wg. apply Forall_forall. intros x I. apply gok_nogrp. auto.
      * intros j A. left. split; auto. intros m (_ & E). exists (pos j), m. split; auto. eapply runs_success. exact S2.
    + intros Hb. assert (X : M (Look b l) i i) by (rewrite mt_look; auto). specialize (D i X).
      replace (pc + 3 + size bd + 1) with (pc + (1 + (2 + (size bd + size [OP O_SUCCESS])))) by (rewrite !size_cons; cbn [isize OP size fold_right]; lia). exact D.
  - discriminate.
Qed.
End Main.
