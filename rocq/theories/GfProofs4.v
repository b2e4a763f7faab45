(** Calls through the table; histories. *)
From Coq Require Import List Bool Arith ZArith Lia.
From Verif Require Import GfModel GfSpec GfProofs GfProofs2 GfProofs3.
Import ListNotations.

Lemma wf_sub ms cs : wf_methods ms -> NoDup cs -> incl cs ms -> wf_methods cs.
Proof.
  intros (A & B & C) ND I. split; [|split].
  - rewrite Forall_forall in *. auto.
  - apply map_nodup; auto. intros a b Ia Ib E. apply I in Ia, Ib.
    apply In_nth_error in Ia, Ib. destruct Ia as (i & Ia), Ib as (j & Ib).
    assert (i = j).
    { apply (proj1 (NoDup_nth_error _) B); [rewrite map_length; apply nth_error_Some; congruence|].
      rewrite !nth_error_map, Ia, Ib. cbn. now rewrite E. }
    congruence.
  - intros; apply C; auto.
Qed.
Section W.
Variable cpl : class -> list class.
Hypothesis OK : cpl_ok cpl.
Lemma call_plain g argv rest lc : disp g = None -> wf_methods (methods g) -> Forall (fun m => req m <= maxreq g) (methods g) ->
  rest = None \/ length argv <> maxreq g ->
  exists l, call cpl g argv rest lc = Some l /\ calls_lt cpl (methods g) (args_of argv rest) l.
Proof.
  intros D WF MR R. destruct (methods g) as [|m ms] eqn:EM.
  - exists []. unfold call, compute_applicable. rewrite EM. split; auto. split; [cbn; tauto|]. split; [constructor|].
    intros i j a b L E; destruct i; discriminate.
  - rewrite <- EM in *. apply call_gen; auto; try (rewrite EM; discriminate). intros tv _. unfold candidates. now rewrite D.
Qed.
Lemma keys_accepts m n : n < 4 -> (In n (keys_of 0 m) <-> accepts m n).
Proof.
  intro L. unfold keys_of, accepts. cbn [Nat.leb]. destruct (opt m).
  - rewrite in_seq. unfold MAXARGS. lia.
  - cbn. split; [intros [A|[]]; auto|intros [A|(A & _)]; [auto|discriminate]].
Qed.
Lemma call_table g h argv rest lc : disp g = Some (0, h) -> tinv 0 (of_methods 0 (methods g)) h ->
  wf_methods (methods g) -> Forall (fun m => req m <= maxreq g) (methods g) ->
  rest = None \/ length argv <> maxreq g -> dispatch_safe cpl (methods g) (args_of argv rest) ->
  exists l l', call cpl g argv rest lc = Some l /\ calls_lt cpl (methods g) (args_of argv rest) l' /\ visible l = visible l'.
Proof.
  intros D (HG & T1 & T2) WF MR R SAFE. set (args := args_of argv rest) in *.
  destruct (methods g) as [|m0 ms0] eqn:EM.
  { exists [], []. unfold call, compute_applicable. rewrite EM. split; auto. split; auto. split; [cbn; tauto|]. split; [constructor|].
    intros i j a b L E; destruct i; discriminate. }
  rewrite <- EM in *. assert (NM : methods g <> []) by (rewrite EM; discriminate).
  assert (FULL : (forall tv, nth_error tv 0 = nth_error args 0 \/ args = [] -> candidates g tv (length args) = methods g) ->
    exists l l', call cpl g argv rest lc = Some l /\ calls_lt cpl (methods g) args l' /\ visible l = visible l').
  { intro C. destruct (call_gen cpl OK g argv rest lc (methods g)) as (l & E & CL); auto. exists l, l. auto. }
  destruct SAFE as [SF|[SF|(N4 & SF)]].
  { apply FULL. intros tv _. unfold candidates. rewrite D, SF. reflexivity. }
  { apply FULL. intros tv _. unfold candidates. rewrite D. destruct (Nat.leb_spec (length args) MAXARGS) as [Q|Q]; [unfold MAXARGS in Q; lia|reflexivity]. }
  destruct args as [|c ar] eqn:EA.
  { apply FULL. intros tv _. unfold candidates. rewrite D. reflexivity. }
  rewrite <- EA in *. assert (A0 : nth_error args 0 = Some c) by now rewrite EA.
  assert (A1 : args <> []) by (rewrite EA; discriminate).
  assert (CAND : forall tv, nth_error tv 0 = nth_error args 0 \/ args = [] ->
    candidates g tv (length args) = match mhash_probe h (Some c) (length args) with Some (x :: l) => x :: l | _ => methods g end).
  { intros tv [Q|Q]; [|contradiction]. unfold candidates. rewrite D. unfold lookup. change (fst (0, h) <=? length args) with true. cbn [fst snd]. rewrite Q, A0.
    replace (length args <=? MAXARGS) with true by (symmetry; apply Nat.leb_le; unfold MAXARGS; lia).
    replace (1 <=? length args) with true by (symmetry; apply Nat.leb_le; rewrite EA; cbn; lia). reflexivity. }
  destruct (mhash_probe h (Some c) (length args)) as [[|x cs0]|] eqn:EP; [now apply FULL| |now apply FULL].
  set (cs := x :: cs0) in *. apply probe_has in EP; auto. destruct (T1 _ _ _ _ EP) as (NDc & C1 & C2).
  assert (INC : forall m, In m cs <-> In m (methods g) /\ accepts m (length args) /\ nth_error (specs m) 0 = Some c).
  { intro m. rewrite C1. unfold of_methods. rewrite keys_accepts by auto. split; [tauto|]. intros (I & AC & K).
    destruct (leaf m) eqn:LF; [tauto|]. exfalso. apply (C2 m). split; [|auto]. split; auto. now apply keys_accepts. }
  assert (LEAF : forall m, In m cs -> leaf m = true) by (intros m I; apply C1 in I; tauto).
  assert (SUB : incl cs (methods g)) by (intros m I; apply INC in I; tauto).
  destruct (call_gen cpl OK g argv rest lc cs) as (l & E & (L1 & L2 & L3)); auto.
  { eapply wf_sub; eauto. }
  { discriminate. }
  { rewrite Forall_forall in *. auto. }
  fold args in L1, L3. rewrite EA, <- EA in *.
  destruct (call_gen cpl OK {| methods := methods g; maxreq := maxreq g; disp := None |} argv rest lc (methods g)) as (l' & _ & (L1' & L2' & L3')); auto.
  fold args in L1', L3'. exists l, l'. split; auto. split; [split; auto|].
  destruct SF as [(m & I & PL & AP & K)|SF].
  2:{ exfalso. assert (IX : In x cs) by now left. apply INC in IX. destruct IX as (I & AC & K). apply (SF x); auto. congruence. }
  assert (Im : In m cs) by (apply INC; split; auto; split; [exact (proj1 AP)|congruence]).
  destruct l as [|a r].
  { exfalso. apply (L1 m). auto. }
  destruct l' as [|a' r'].
  { exfalso. apply (L1' m). auto. }
  assert (Ia : In a cs /\ plc a = false /\ applicable cpl a args) by (apply L1; now left).
  assert (Ia' : In a' (methods g) /\ plc a' = false /\ applicable cpl a' args) by (apply L1'; now left).
  cut (a = a'). { intros <-. cbn [visible]. rewrite (LEAF a) by tauto. reflexivity. }
  assert (Ja : In a (a' :: r')) by (apply L1'; split; [apply SUB; tauto|tauto]).
  destruct Ja as [Ja|Ja]; [auto|]. apply In_nth_error in Ja. destruct Ja as (i & Ja).
  assert (LT : mlt cpl args a' a = true) by (apply (L3' 0 (S i)); [lia|reflexivity|exact Ja]).
  assert (Ka : nth_error (specs a) 0 = Some c) by (apply INC; tauto).
  assert (Ka' : nth_error (specs a') 0 = Some c \/ nth_error (specs a') 0 <> Some c).
  { destruct (nth_error (specs a') 0) as [s|]; [|right; discriminate]. destruct (Z.eq_dec s c); [left|right]; congruence. }
  destruct Ka' as [Ka'|Ka'].
  - assert (J : In a' (a :: r)).
    { apply L1. split; [|tauto]. apply INC. split; [tauto|]. split; auto. apply Ia'. }
    destruct J as [J|J]; auto. apply In_nth_error in J. destruct J as (j & J). exfalso.
    assert (LT2 : mlt cpl args a a' = true) by (apply (L3 0 (S j)); [lia|reflexivity|exact J]).
    assert (NE : a <> a').
    { intro Q. subst a'. assert (0 = S j); [|lia]. apply (proj1 (NoDup_nth_error _) L2); [cbn; lia|]. cbn. now rewrite J. }
    destruct WF as (_ & _ & SIG). unfold mlt in *.
    apply (lt_asym cpl (specs a) (opt a) (specs a') (opt a') args); auto. intros ES EO. apply NE. apply SIG; auto; [apply SUB, Ia|apply Ia'].
  - exfalso. unfold mlt in LT. destruct (specs a) as [|s sa]; [discriminate|]. cbn in Ka. inversion Ka; subst s.
    destruct (specs a') as [|s' sa']; [discriminate|]. rewrite EA in LT. cbn [lt] in LT.
    destruct (Z.eqb_spec s' c) as [->|NE]; [apply Ka'; reflexivity|]. destruct (OK c) as ((w & CW) & _). rewrite CW in LT. cbn [idx] in LT.
    rewrite Z.eqb_refl in LT. apply Nat.ltb_lt in LT. lia.
Qed.
End W.
(** histories *)
Lemma leqb_true a b : leqb a b = true <-> a = b.
Proof. unfold leqb. destruct (list_eq_dec Z.eq_dec a b); split; congruence. Qed.
Lemma same_sig_true a b : wf_method a -> wf_method b -> (same_sig a b = true <-> has_sig a b).
Proof.
  intros WA WB. unfold same_sig, has_sig, wf_method in *. rewrite !andb_true_iff, Nat.eqb_eq, leqb_true, eqb_true_iff.
  split; [tauto|]. intros (E & F). rewrite <- WA, <- WB, E. auto.
Qed.
Lemma replace_none m l : replace m l = None -> forall x, In x l -> same_sig m x = false.
Proof.
  induction l as [|y l IH]; intros E x I; [destruct I|]. cbn [replace] in E. destruct (same_sig m y) eqn:S0; [discriminate|].
  destruct I as [<-|I]; auto. apply IH; auto. destruct (replace m l) as [(o & r)|]; [discriminate|auto].
Qed.
Lemma replace_some m l : forall o l', replace m l = Some (o, l') -> exists l1 l2, l = l1 ++ o :: l2 /\ l' = l1 ++ m :: l2 /\ same_sig m o = true.
Proof.
  induction l as [|y l IH]; intros o l' E; [discriminate|]. cbn [replace] in E. destruct (same_sig m y) eqn:S0.
  - inversion E; subst. exists [], l. auto.
  - destruct (replace m l) as [(o' & r)|]; [|discriminate]. inversion E; subst. destruct (IH o r eq_refl) as (l1 & l2 & -> & -> & S1).
    exists (y :: l1), l2. auto.
Qed.
Lemma remove1_in x l : NoDup (map mid l) -> NoDup (map mid (remove1 x l)) /\ forall m, In m (remove1 x l) <-> In m l /\ mid m <> mid x.
Proof.
  induction l as [|y l IH]; intro ND; cbn [remove1 map]; [split; [constructor|cbn; tauto]|]. inversion ND; subst. unfold meq.
  destruct (Nat.eqb_spec (mid y) (mid x)) as [E|NE].
  - split; auto. intro m. cbn. split.
    + intro I. split; auto. intro Q. apply H1. rewrite E, <- Q. now apply in_map.
    + intros ([<-|I] & N); [congruence|auto].
  - destruct (IH H2) as (A & B). split.
    + cbn. constructor; auto. intro I. apply in_map_iff in I. destruct I as (m & Q & I). apply B in I. apply H1. rewrite <- Q. apply in_map. tauto.
    + intro m. cbn. rewrite B. split; [intros [<-|I]; tauto|tauto].
Qed.
Definition opm (o : op) : method := match o with Add m => m | Delete m => m end.
Record ginv (U : list method) (done : list op) (g : gf) : Prop := {
  gi_wf : wf_methods (methods g); gi_live : forall m, In m (methods g) <-> live done m;
  gi_max : Forall (fun m => req m <= maxreq g) (methods g); gi_disp : disp g = None; gi_u : incl (methods g) U }.
Lemma has_sig_sym a b : has_sig a b -> has_sig b a. Proof. unfold has_sig. intuition. Qed.
Lemma ginv_add U done g m : Forall wf_method U -> (forall a b, In a U -> In b U -> mid a = mid b -> a = b) -> In m U ->
  ginv U done g -> exists g', add_method m g = Some g' /\ ginv U (Add m :: done) g'.
Proof.
  intros WU MU IU [(WF & ND & SIG) LV MR D SU]. rewrite Forall_forall in WU. unfold add_method.
  assert (SS : forall x, In x (methods g) -> (same_sig m x = true <-> has_sig m x)) by (intros x I; apply same_sig_true; auto).
  destruct (replace m (methods g)) as [(o & l')|] eqn:R; rewrite D; (eexists; split; [reflexivity|]).
  - destruct (replace_some _ _ _ _ R) as (l1 & l2 & EL & -> & S0). rewrite EL in *.
    assert (IO : In o (l1 ++ o :: l2)) by (apply in_elt). apply SS in S0; auto.
    assert (NDo : NoDup (map mid (l1 ++ l2))) by (rewrite map_app in *; cbn in ND; now apply NoDup_remove_1 in ND).
    assert (No : ~ In (mid o) (map mid (l1 ++ l2))) by (rewrite map_app in *; cbn in ND; now apply NoDup_remove_2 in ND).
    assert (INl : forall x, In x (l1 ++ l2) -> In x (l1 ++ o :: l2)) by (intros x I; apply in_app_iff in I; apply in_app_iff; cbn; tauto).
    assert (UN : forall x, In x (l1 ++ l2) -> ~ has_sig x m).
    { intros x I (Q1 & Q2). destruct S0 as (Q3 & Q4). assert (x = o) as -> by (apply SIG; auto; congruence).
      apply No. now apply in_map. }
    assert (INm : forall x, In x (l1 ++ m :: l2) <-> x = m \/ In x (l1 ++ l2)) by (intro x; rewrite !in_app_iff; cbn; intuition).
    split; cbn [methods maxreq disp]; auto.
    + split; [|split].
      * apply Forall_forall. intros x I. apply INm in I. destruct I as [->|I]; auto.
      * rewrite map_app. cbn [map]. apply (Permutation.Permutation_NoDup (Permutation.Permutation_middle _ _ (mid m))). rewrite <- map_app.
        constructor; auto. intro I. apply in_map_iff in I. destruct I as (x & E & I). assert (x = m) as -> by (apply MU; auto).
        apply (UN m); auto. split; auto.
      * intros a b Ia Ib E F. apply INm in Ia, Ib. destruct Ia as [->|Ia], Ib as [->|Ib]; auto.
        -- exfalso. apply (UN b); auto. split; auto.
        -- exfalso. apply (UN a); auto. split; auto.
    + intro x. rewrite INm. cbn [live]. rewrite <- LV. split.
      * intros [A|A]; [auto|right; split; auto].
      * intros [A|(A & B)]; [auto|]. right. apply in_app_iff in A. apply in_app_iff. destruct A as [A|[A|A]]; auto. subst x.
        exfalso. apply B. now apply has_sig_sym.
    + rewrite Forall_forall in *. intros x I. apply INm in I. destruct I as [->|I]; auto.
      assert (RQ : req m = req o); [|rewrite RQ; apply MR; auto]. destruct S0 as (Q & _).
      assert (WM : wf_method m) by auto. assert (WO : wf_method o) by auto. unfold wf_method in *. congruence.
    + intros x I. apply INm in I. destruct I as [->|I]; auto.
  - assert (NS : forall x, In x (methods g) -> ~ has_sig m x).
    { intros x I Q. apply SS in Q; auto. rewrite (replace_none _ _ R x I) in Q. discriminate. }
    split; cbn [methods maxreq disp]; auto.
    + split; [constructor; auto|]. split.
      * cbn. constructor; auto. intro I. apply in_map_iff in I. destruct I as (x & E & I). assert (x = m) as -> by (apply MU; auto).
        apply (NS m); auto. split; auto.
      * intros a b [<-|Ia] [<-|Ib] E F; auto; exfalso; [apply (NS b)|apply (NS a)]; auto; split; auto.
    + intro x. cbn [In live]. rewrite LV. split.
      * intros [A|A]; [auto|]. right. split; auto. intro Q. apply (NS x); [now apply LV|]. now apply has_sig_sym.
      * intros [A|(A & _)]; auto.
    + constructor; [apply Nat.le_max_r|]. rewrite Forall_forall in *. intros x I. specialize (MR x I). lia.
    + intros x [<-|I]; auto.
Qed.
Lemma fold_max_ge ms : forall a, a <= fold_left (fun a x => Nat.max a (req x)) ms a.
Proof. induction ms as [|m ms IH]; intro a; cbn; auto. specialize (IH (Nat.max a (req m))). lia. Qed.
Lemma ginv_delete U done g m : ginv U done g -> ginv U (Delete m :: done) (delete_method m g).
Proof.
  intros [(WF & ND & SIG) LV MR D SU]. destruct (remove1_in m _ ND) as (A & B).
  split; cbn [methods maxreq disp delete_method].
  - split; [|split]; auto.
    + rewrite Forall_forall in *. intros x I. apply WF. now apply B.
    + intros a b Ia Ib. apply B in Ia, Ib. apply SIG; tauto.
  - intro x. rewrite B. cbn [live]. now rewrite LV.
  - rewrite Forall_forall in *. intros x I. apply B in I. specialize (MR x (proj1 I)). pose proof (fold_max_ge (remove1 m (methods g)) (maxreq g)). lia.
  - now rewrite D.
  - intros x I. apply B in I. apply SU. tauto.
Qed.
Lemma ginv_run U ops : Forall wf_method U -> (forall a b, In a U -> In b U -> mid a = mid b -> a = b) ->
  forall done g, incl (map opm ops) U -> ginv U done g -> exists g', runops ops g = Some g' /\ ginv U (rev ops ++ done) g'.
Proof.
  intros WU MU. induction ops as [|o ops IH]; intros done g I G; cbn [runops rev app]; [eauto|].
  assert (I' : incl (map opm ops) U) by (intros x X; apply I; now right). rewrite <- app_assoc. cbn [app]. destruct o as [m|m].
  - destruct (ginv_add U done g m) as (g1 & -> & G1); auto. apply I. now left.
  - apply IH; auto. now apply ginv_delete.
Qed.
Lemma ginv_new U : ginv U [] new_gf.
Proof. split; cbn; auto; try tauto. - split; [constructor|split; [constructor|intros a b []]]. - intros x []. Qed.
(** methods added to a generic function with a table *)
Lemma adds_table ms : forall g h, disp g = Some (0, h) -> tinv 0 (of_methods 0 (methods g)) h ->
  wf_methods (rev ms ++ methods g) -> Forall (fun m => req m <= maxreq g) (methods g) ->
  exists g' h', runops (map Add ms) g = Some g' /\ methods g' = rev ms ++ methods g /\ disp g' = Some (0, h') /\
    tinv 0 (of_methods 0 (methods g')) h' /\ Forall (fun m => req m <= maxreq g') (methods g').
Proof.
  induction ms as [|m ms IH]; intros g h D T WF MR; cbn [map runops rev app]; [exists g, h; auto|].
  cbn [rev] in WF. rewrite <- app_assoc in WF. cbn [app] in WF. pose proof WF as (W1 & W2 & W3).
  assert (NI : forall x, In x (methods g) -> same_sig m x = false).
  { intros x I. destruct (same_sig m x) eqn:S0; auto. exfalso. rewrite Forall_forall in W1.
    apply same_sig_true in S0; [|apply W1, in_elt|apply W1; apply in_app_iff; cbn; auto].
    assert (m = x) as <- by (apply W3; [apply in_elt|apply in_app_iff; cbn; auto|apply S0|apply S0]).
    rewrite map_app in W2. cbn in W2. apply NoDup_remove_2 in W2. apply W2. apply in_app_iff. right. now apply in_map. }
  assert (RN : replace m (methods g) = None).
  { destruct (replace m (methods g)) as [(o & l')|] eqn:R; auto. destruct (replace_some _ _ _ _ R) as (l1 & l2 & EL & _ & S0).
    rewrite NI in S0; [discriminate|]. rewrite EL. apply in_elt. }
  unfold add_method. rewrite RN, D. destruct (tinv_addm 0 (methods g) h m T) as (h1 & E & T1).
  { intro I. specialize (NI m I). unfold same_sig in NI. rewrite Nat.eqb_refl, eqb_reflx in NI. unfold leqb in NI.
    destruct (list_eq_dec Z.eq_dec (specs m) (specs m)); [discriminate|congruence]. }
  rewrite E. destruct (IH {| methods := m :: methods g; maxreq := Nat.max (maxreq g) (req m); disp := Some (0, h1) |} h1) as (g' & h' & A & B & C & F & G'); auto.
  { cbn [methods maxreq]. constructor; [apply Nat.le_max_r|]. rewrite Forall_forall in *. intros x I. specialize (MR x I). lia. }
  exists g', h'. split; auto. split; [|auto]. rewrite B. cbn [methods]. now rewrite <- app_assoc.
Qed.
Lemma precedes_asym cpl c (s t : class) : cpl_ok cpl -> precedes (cpl c) s t -> precedes (cpl c) t s -> False.
Proof.
  intros OK (i & j & L & A & B) (k & l & L' & C & D). destruct (OK c) as (_ & ND & _).
  assert (U : forall a b x, nth_error (cpl c) a = Some x -> nth_error (cpl c) b = Some x -> a = b).
  { intros a b x P Q. apply (proj1 (NoDup_nth_error _) ND); [apply nth_error_Some; congruence|congruence]. }
  assert (i = l) by (eapply U; eauto). assert (j = k) by (eapply U; eauto). lia.
Qed.
Lemma firstn_eq_nth {A} (l l' : list A) i k : firstn i l = firstn i l' -> k < i -> nth_error l k = nth_error l' k.
Proof. intros E L. rewrite <- (nth_firstn l i k L), <- (nth_firstn l' i k L). now rewrite E. Qed.
Lemma before_asym cpl args : cpl_ok cpl -> forall x y, before cpl args x y -> before cpl args y x -> False.
Proof.
  intro OK.
  assert (NP : forall c (s : class), ~ precedes (cpl c) s s) by (intros c s P; eapply precedes_asym; eauto).
  intros x y H1 H2.
  destruct H1 as [(i & s & t & c & F & A & B & C & P)|[(r & E & N)|(E & O1 & O2)]];
  destruct H2 as [(i' & s' & t' & c' & F' & A' & B' & C' & P')|[(r' & E' & N')|(E' & O1' & O2')]].
  - destruct (Nat.lt_trichotomy i i') as [L|[->|L]].
    + pose proof (firstn_eq_nth _ _ _ _ F' L) as Q. apply (NP c s). congruence.
    + assert (t = s') by congruence. assert (s = t') by congruence. assert (c = c') by congruence. subst. eapply precedes_asym; eauto.
    + pose proof (firstn_eq_nth _ _ _ _ F L) as Q. apply (NP c' s'). congruence.
  - rewrite E' in B. rewrite nth_error_app1 in B by (apply nth_error_Some; congruence). apply (NP c s). congruence.
  - rewrite E' in B. apply (NP c s). congruence.
  - rewrite E in B'. rewrite nth_error_app1 in B' by (apply nth_error_Some; congruence). apply (NP c' s'). congruence.
  - rewrite E in E'. rewrite <- app_assoc in E'. apply (f_equal (@length _)) in E'. rewrite !app_length in E'. destruct r; [auto|cbn in E'; lia].
  - rewrite E' in E. apply (f_equal (@length _)) in E. rewrite app_length in E. destruct r; [auto|cbn in E; lia].
  - rewrite E in B'. apply (NP c' s'). congruence.
  - rewrite E in E'. apply (f_equal (@length _)) in E'. rewrite app_length in E'. destruct r'; [auto|cbn in E'; lia].
  - congruence.
Qed.
