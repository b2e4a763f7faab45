(** syntax-rules: the expansion of a macro use *)
From Coq Require Import ZArith List Bool Arith Lia.
From Verif Require Import Outcome SynModel SynSpec SynProofs SynProofs2 SynProofs3.
Import ListNotations.
Ltac Zify.zify_post_hook ::= idtac.

Section Proofs.
Variable ell0 : Z -> bool.
Variable under : Z -> bool.
Variable lits : list Z.
Variable same : Z -> datum -> bool.
Variable rename : Z -> Z.
Notation ell := (SynModel.ell ell0 lits).
Notation is_lit := (SynModel.is_lit lits).
Notation svars := (SynSpec.svars ell is_lit under).
Notation matches := (SynSpec.matches ell is_lit under same).
Notation rule_matches := (SynSpec.rule_matches ell is_lit under same).
Notation first_match := (SynSpec.first_match ell is_lit under same).
Notation inst := (SynSpec.inst ell rename).
Notation vecs_ok := (SynSpec.vecs_ok ell).
Notation run := (SynSpec.run ell).
Notation nesting := (SynSpec.nesting ell).
Notation cpat := (SynModel.cpat ell0 under lits).
Notation ctmpl := (SynModel.ctmpl ell0 lits).
Notation mtch := (SynModel.mtch same).
Notation compile_rule := (SynModel.compile_rule ell0 under lits).
Notation compile_rules := (SynModel.compile_rules ell0 under lits).
Notation expand := (SynModel.expand same rename).
Notation cpd := (SynProofs.cpd ell0 under lits).

(** ** The trees of a match have the depth of the variable *)
Lemma matches_depth L p q v : cpd L p q v -> forall f b, distinct v -> matches p f b ->
  forall s l n, In (s, (l, n)) v -> exists t, lookup s b = Some t /\ depth (l - L) t.
Proof.
  induction 1; intros f b D M s0 l0 n0 I; try (exfalso; exact I).
  - destruct I as [I|[]]. injection I as <- <- <-. cbn [SynSpec.matches] in M. rewrite H0, H1 in M. subst.
    exists (Leaf f). cbn [lookup]. rewrite Z.eqb_refl, Nat.sub_diag. split; auto. exact Logic.I.
  - destruct M as (fl & -> & M). eauto.
  - apply matches_pair in M; auto. destruct M as (f1 & f2 & b1 & b2 & -> & M1 & M2 & ->).
    destruct (distinct_app _ _ D) as [D1 D2]. rewrite lookup_app. apply in_app_iff in I as [I|I].
    + destruct (IHcpd1 _ _ D1 M1 _ _ _ I) as (t & -> & Dt). eauto.
    + replace (lookup s0 b1) with (@None tree); [eauto|]. symmetry. apply lookup_none.
      rewrite (matches_names _ _ _ _ _ _ _ _ H0 _ _ M1), <- (cpd_names _ _ _ _ _ _ _ H0). intros J.
      destruct D as [D _]. rewrite map_app in D. eapply NoDup_app_no; [exact D|exact J|]. eapply in_names; eauto.
  - apply matches_ell in M; auto. destruct M as (fs & g & bs & b2 & -> & C & M1 & M2 & ->).
    destruct (distinct_app _ _ D) as [D1 D2]. rewrite lookup_app. apply in_app_iff in I as [I|I].
    + rewrite lookup_collect; [|rewrite <- (cpd_names _ _ _ _ _ _ _ H0); eapply in_names; eauto].
      eexists. split; [reflexivity|]. pose proof (cpd_levels _ _ _ _ _ _ _ H0 _ _ _ I) as Lv.
      replace (l0 - L) with (S (l0 - S L)) by lia. apply depth_node. rewrite Forall_map.
      clear - M1 IHcpd1 D1 I. induction M1; constructor; auto.
      destruct (IHcpd1 _ _ D1 H _ _ _ I) as (t & -> & Dt). exact Dt.
    + replace (lookup s0 (collect (svars a) bs)) with (@None tree); [eauto|]. symmetry. apply lookup_none.
      rewrite collect_names, <- (cpd_names _ _ _ _ _ _ _ H0). intros J.
      destruct D as [D _]. rewrite map_app in D. eapply NoDup_app_no; [exact D|exact J|]. eapply in_names; eauto.
Qed.

(** ** The levels *)
Lemma ellipses_run d : ellipses ell0 lits d = run d.
Proof. induction d as [|a _ d IH| | |]; auto. cbn [ellipses SynSpec.run]. destruct a; auto. cbn [ell_datum]. rewrite IH. reflexivity. Qed.
Lemma deepen_max c L : maxlev (deepen c L) <= Nat.max (maxlev c) (L + 1).
Proof. cbn [deepen maxlev]. destruct (Nat.ltb_spec (maxlev c) L); lia. Qed.
Lemma cpat_max k : forall p top seen L c q va c', size p <= k -> cpat top seen L p c = Ok (q, va, c') ->
  maxlev c' <= Nat.max (maxlev c) (L + nesting p + 1).
Proof.
  induction k as [|k IH]; intros p top seen L c q va c' K H; [destruct p; cbn in K; lia|].
  destruct p as [|a d|s|z|l]; cbn [SynModel.cpat] in H.
  - injection H as <- <- <-. lia.
  - cbn [SynSpec.nesting]. cbn [size] in K.
    assert (plain : (do x <- cpat true false L a c;
     let '(ca, va, c1) := x in
     do y <- cpat false seen L d c1;
     let '(cd, vd, c2) := y in
     Ok (CPair ca cd, va ++ vd, c2)) = Ok (q, va, c') -> maxlev c' <= Nat.max (maxlev c) (L + Nat.max (run d + nesting a) (nesting d) + 1)).
    { intros E. destruct (cpat true false L a c) as [[[ca v1] c1]| | |] eqn:E1; cbn [bind] in E; try discriminate.
      destruct (cpat false seen L d c1) as [[[cd v2] c2]| | |] eqn:E2; cbn [bind] in E; try discriminate.
      injection E as <- <- <-. apply IH in E1; [|lia]. apply IH in E2; [|lia]. lia. }
    destruct d as [|e d'| | |]; try (apply plain; exact H).
    destruct (top && ell_datum ell0 lits a); [discriminate|].
    destruct (ell_datum ell0 lits e) eqn:El; [|apply plain; exact H].
    destruct seen; [discriminate|]. destruct e as [| |e| |]; try discriminate. cbn [size] in K.
    destruct (cpat true false (S L) a (deepen c (S L))) as [[[ca v1] c1]| | |] eqn:E1; cbn [bind] in H; try discriminate.
    destruct (cpat false true L d' c1) as [[[cd v2] c2]| | |] eqn:E2; cbn [bind] in H; try discriminate.
    injection H as <- <- <-. apply IH in E1; [|lia]. apply IH in E2; [|lia].
    cbn [SynSpec.run SynSpec.nesting]. cbn [ell_datum] in El. rewrite El. pose proof (deepen_max c (S L)). lia.
  - destruct (ell s); [discriminate|]. destruct (is_lit s); [injection H as <- <- <-; lia|].
    destruct (under s); [injection H as <- <- <-; lia|]. unfold add_pvar in H.
    destruct (MAX <? L); [discriminate|]. destruct (MAX <? pvcnt c); [discriminate|]. destruct (assq s (pvars c)); [discriminate|].
    injection H as <- <- <-. cbn [maxlev]. lia.
  - injection H as <- <- <-. lia.
  - destruct (cpat true false L l c) as [[[cl v1] c1]| | |] eqn:E1; cbn [bind] in H; try discriminate.
    injection H as <- <- <-. cbn [size] in K. apply IH in E1; [|lia]. cbn [SynSpec.nesting]. lia.
Qed.
Lemma nesting_after n d q : SynSpec.after ell n d q -> nesting q <= nesting d.
Proof. induction 1; cbn [SynSpec.nesting]; lia. Qed.
Lemma ctmpl_max k : forall t on top L c q va c', size t <= k -> ctmpl on top 0 L t c = Ok (q, va, c') ->
  maxlev c' <= Nat.max (maxlev c) (L + nesting t + 1).
Proof.
  induction k as [|k IH]; intros p on top L c q va c' K H; [destruct p; cbn in K; lia|].
  destruct p as [|a d|s|z|l].
  - cbn in H. injection H as <- <- <-. lia.
  - rewrite ctmpl_pair in H. cbn [SynSpec.nesting]. cbn [size] in K.
    assert (plain : (do x <- ctmpl on true 0 L a c;
     let '(ca, va, c1) := x in
     do y <- ctmpl on false 0 L d c1;
     let '(cd, vd, c2) := y in
     Ok (CPair ca cd, va ++ vd, c2)) = Ok (q, va, c') -> maxlev c' <= Nat.max (maxlev c) (L + Nat.max (run d + nesting a) (nesting d) + 1)).
    { intros E. destruct (ctmpl on true 0 L a c) as [[[ca v1] c1]| | |] eqn:E1; cbn [bind] in E; try discriminate.
      destruct (ctmpl on false 0 L d c1) as [[[cd v2] c2]| | |] eqn:E2; cbn [bind] in E; try discriminate.
      injection E as <- <- <-. apply IH in E1; [|lia]. apply IH in E2; [|lia]. lia. }
    destruct d as [|t d'| | |]; try (apply plain; exact H). cbv zeta in H.
    destruct (on && top && ell_datum ell0 lits a).
    { cbn [size] in K. apply IH in H; [|lia]. cbn [SynSpec.nesting]. lia. }
    destruct on; [|apply plain; exact H].
    rewrite ellipses_run in H. destruct (ellipses_after ell0 lits (Pair t d')) as (w & Aw). rewrite ellipses_run in Aw.
    set (n := run (Pair t d')) in *. destruct n as [|n]; cbn [Nat.ltb Nat.leb] in H; [apply plain; exact H|].
    destruct (ctmpl true true 0 (L + S n) a (deepen c (L + S n))) as [[[ca v1] c1]| | |] eqn:E1; cbn [bind] in H; try discriminate.
    match type of H with (if ?b then _ else _) = _ => destruct b eqn:Ex end; [|discriminate].
    rewrite (ctmpl_skip ell0 lits true L (S n) _ w c1 Aw) in H.
    destruct (ctmpl true false 0 L w c1) as [[[cd v2] c2]| | |] eqn:E2; cbn [bind] in H; try discriminate.
    injection H as <- <- <-. pose proof (size_after _ _ _ _ _ Aw) as Sw. pose proof (nesting_after _ _ _ Aw) as Nw.
    apply IH in E1; [|lia]. apply IH in E2; [|cbn [size] in Sw; cbn [size] in K; lia]. pose proof (deepen_max c (L + S n)). lia.
  - cbn [SynModel.ctmpl] in H. destruct (on && ell s); [discriminate|]. destruct (is_lit s); [injection H as <- <- <-; lia|].
    destruct (assq s (pvars c)) as [[l n]|]; [destruct (L <? l); [discriminate|]|]; injection H as <- <- <-; lia.
  - cbn in H. injection H as <- <- <-. lia.
  - cbn [SynModel.ctmpl] in H. destruct (ctmpl on true 0 L l c) as [[[cl v1] c1]| | |] eqn:E1; cbn [bind] in H; try discriminate.
    injection H as <- <- <-. cbn [size] in K. apply IH in E1; [|lia]. cbn [SynSpec.nesting]. lia.
Qed.

(** ** One rule *)
Definition rmatch (r : rule) (form : datum) : option matchvec :=
  match r_pattern r with
  | None => Some init_matchvec
  | Some p => match form with Pair _ f => mtch false p f init_matchvec | _ => None end
  end.
Definition rule_ok (p t : datum) : Prop :=
  match p with Pair _ q => wf q /\ vecs_ok false q /\ nesting q <= 8 | _ => True end /\ nesting t <= 8.

Lemma assq_rev s x (v : list (Z * pvref)) : NoDup (map fst v) -> (assq s (rev v) = Some x <-> In (s, x) v).
Proof.
  induction v as [|[k y] v IH]; cbn [rev map fst In]; intros ND; [split; [discriminate|intros []]|].
  inversion ND; subst. rewrite assq_app. destruct (assq s (rev v)) eqn:E.
  - split.
    + intros X. injection X as ->. right. apply IH; auto.
    + intros [X|X].
      * injection X as -> ->. exfalso. assert (assq s (rev v) = None) by (apply (proj2 (assq_none s (rev v))); rewrite map_rev; intros J; apply H1; apply in_rev; exact J). congruence.
      * apply IH in X; auto.
  - cbn [assq]. destruct (Z.eqb_spec s k) as [->|N].
    + split; [intros X; injection X as ->; auto|]. intros [X|X]; [injection X as ->; reflexivity|].
      exfalso. apply H1. apply (in_map fst) in X. exact X.
    + split; [discriminate|]. intros [X|X]; [congruence|]. apply IH in X; auto.
Qed.

Lemma size_of_maxlev m : m <= 9 -> (if DEFAULT_MAX_LEVEL <? m then S m else DEFAULT_MAX_LEVEL) = 10.
Proof. intros. unfold DEFAULT_MAX_LEVEL. destruct (Nat.ltb_spec 10 m); [lia|reflexivity]. Qed.
Lemma rule_found p t r form b d : compile_rule p t = Ok r -> rule_ok p t -> wf form ->
  rule_matches p form b ->
  exists mv, rmatch r form = Some mv /\
    (inst true true t b d -> exists F, forall fuel, F <= fuel -> realize_template rename fuel r mv = Ok d).
Proof.
  intros C [OK1 OK2] W M. unfold SynModel.compile_rule in C.
  destruct p as [|h p|s| |]; cbn [bind fst snd] in C; try discriminate.
  - destruct (cpat true false 0 p (Ctx [] 0 0)) as [[[q va] c]| | |] eqn:E1; cbn [bind fst snd] in C; try discriminate.
    destruct (ctmpl true true 0 0 t c) as [[[qt vt] c2]| | |] eqn:E2; cbn [bind fst snd] in C; try discriminate.
    injection C as <-. destruct OK1 as (Wp & VO & Np).
    pose proof (cpat_max _ _ _ _ _ _ _ _ _ (le_n _) E1) as Mx1. pose proof (ctmpl_max _ _ _ _ _ _ _ _ _ (le_n _) E2) as Mx2.
    cbn [maxlev] in Mx1. apply cpat_cpd in E1. destruct E1 as (v & Cp & -> & X1 & X2 & X3 & X4 & X5).
    cbn [pvars pvcnt] in *. rewrite app_nil_r in X1.
    apply ctmpl_ctd in E2. destruct E2 as (Ct & _ & _ & Ft). rewrite X1 in Ct.
    assert (D : distinct v).
    { split; auto. unfold counts. rewrite map_map. eapply eq_ind; [|symmetry; exact X3]. apply seq_NoDup. }
    destruct M as (h' & f & -> & M). cbn [wf] in W. destruct W as [_ W].
    destruct (mtch_found ell0 under lits same 0 p q v Cp false f b init_matchvec Wp W VO D) as (mv & Em & F1 & F2); auto; [discriminate| |].
    { intros s l n I. right. split; reflexivity. }
    exists mv. split; [exact Em|]. intros Hin.
    assert (GN : forall s x, assq s (rev v) = Some x -> is_lit s = false /\ ell s = false).
    { intros s x E. apply assq_rev in E; auto. assert (J : In s (svars p)).
      { rewrite <- (cpd_names _ _ _ _ _ _ _ Cp). apply (in_map fst) in E. exact E. }
      clear - J. induction p; cbn [SynSpec.svars] in J; try contradiction; auto.
      - apply in_app_iff in J as [J|J]; auto.
      - destruct (ell s0) eqn:A; cbn [orb] in J; [contradiction|]. destruct (is_lit s0) eqn:B; cbn [orb] in J; [contradiction|].
        destruct (under s0); [contradiction|]. destruct J as [<-|[]]. auto. }
    destruct (inst_realize ell0 lits rename (rev v) GN mv 10 true true t b d Hin 0 (fun _ => 0) qt vt Ct) as (F & R).
    { split.
      - intros s l n _ E. apply assq_rev in E; auto. destruct (F1 s l n E) as (tr & El & Ef).
        destruct (matches_depth _ _ _ _ Cp f b D M s l n E) as (tr' & El' & Dt). rewrite El in El'. injection El' as <-.
        exists tr. split; auto. split; auto. replace (min l 0) with 0 by lia. cbn [descend].
        unfold eff in Ef. destruct (Nat.eqb_spec l 0).
        + destruct Ef as (x & -> & Ef). cbn [Nat.eqb] in Ef. rewrite Ef. reflexivity.
        + destruct Ef as [_ Ef]. rewrite Ef. reflexivity.
      - intros s E. apply lookup_none. rewrite (matches_names _ _ _ _ _ _ _ _ Cp _ _ M), <- (cpd_names _ _ _ _ _ _ _ Cp).
        apply assq_none in E. rewrite map_rev in E. intros J. apply E. apply -> in_rev. exact J. }
    { eapply fits_mono; [|exact Ft]. lia. }
    exists F. intros fuel Hf. unfold realize_template. cbn [r_maxlev r_template].
    rewrite size_of_maxlev by lia. cbv zeta. destruct (Nat.leb_spec 10 (maxlev c2)); [lia|]. rewrite R by auto. reflexivity.
  - destruct (ctmpl true true 0 0 t (Ctx [] 0 0)) as [[[qt vt] c2]| | |] eqn:E2; cbn [bind fst snd] in C; try discriminate.
    injection C as <-. cbn in M. subst b. exists init_matchvec. split; [reflexivity|]. intros Hin.
    pose proof (ctmpl_max _ _ _ _ _ _ _ _ _ (le_n _) E2) as Mx2. cbn [maxlev] in Mx2.
    apply ctmpl_ctd in E2. destruct E2 as (Ct & _ & _ & Ft). cbn [pvars] in Ct.
    destruct (inst_realize ell0 lits rename [] ltac:(intros; discriminate) init_matchvec 10 true true t [] d Hin 0 (fun _ => 0) qt vt Ct) as (F & R).
    { split; [intros; discriminate|reflexivity]. }
    { eapply fits_mono; [|exact Ft]. lia. }
    exists F. intros fuel Hf. unfold realize_template. cbn [r_maxlev r_template].
    rewrite size_of_maxlev by lia. cbv zeta. destruct (Nat.leb_spec 10 (maxlev c2)); [lia|]. rewrite R by auto. reflexivity.
Qed.
Lemma rule_matched p t r form mv : compile_rule p t = Ok r -> rule_ok p t -> wf form ->
  rmatch r form = Some mv -> exists b, rule_matches p form b.
Proof.
  intros C [OK1 OK2] W M. unfold SynModel.compile_rule in C.
  destruct p as [|h p|s| |]; cbn [bind] in C; try discriminate; [|eexists; reflexivity].
  destruct (cpat true false 0 p (Ctx [] 0 0)) as [[[q va] c]| | |] eqn:E1; cbn [bind fst snd] in C; try discriminate.
  destruct (ctmpl true true 0 0 t c) as [[[qt vt] c2]| | |] eqn:E2; cbn [bind fst snd] in C; try discriminate.
  injection C as <-. apply cpat_cpd in E1. destruct E1 as (v & Cp & _). unfold rmatch in M. cbn [r_pattern] in M.
  destruct form as [|h' f| | |]; try discriminate. destruct W as [_ W]. destruct OK1 as (Wp & _).
  destruct (mtch_matches _ _ _ _ _ _ _ _ Cp false f _ _ Wp W ltac:(discriminate) M) as (b & Mb).
  exists b. cbn. eauto.
Qed.

Lemma expand_eq fuel r rs form : expand fuel (r :: rs) form = match rmatch r form with Some mv => realize_template rename fuel r mv | None => expand fuel rs form end.
Proof. reflexivity. Qed.
Theorem expand_first rules crs form t b d :
  compile_rules rules = Ok crs -> Forall (fun r => rule_ok (fst r) (snd r)) rules -> wf form ->
  first_match rules form t b -> inst true true t b d ->
  exists F, forall fuel, F <= fuel -> expand fuel crs form = Ok d.
Proof.
  intros C OK W M In. revert crs C. induction M; intros crs C; cbn [SynModel.compile_rules] in C.
  - destruct (compile_rule p t) as [r| | |] eqn:E1; cbn [bind] in C; try discriminate.
    destruct (compile_rules rest) as [rs| | |]; cbn [bind] in C; try discriminate. injection C as <-.
    inversion OK; subst. cbn [fst snd] in *. destruct (rule_found _ _ _ _ _ d E1 H2 W H) as (mv & Em & R).
    destruct (R In) as (F & R'). exists F. intros fuel Hf. rewrite expand_eq, Em. auto.
  - destruct (compile_rule p t) as [r| | |] eqn:E1; cbn [bind] in C; try discriminate.
    destruct (compile_rules rest) as [rs| | |]; cbn [bind] in C; try discriminate. injection C as <-.
    inversion OK; subst. destruct (IHM H3 W In rs eq_refl) as (F & R). exists F. intros fuel Hf. rewrite expand_eq.
    destruct (rmatch r form) eqn:Em; auto. exfalso.
    destruct (rule_matched _ _ _ _ _ E1 H2 W Em) as (b' & Mb). eapply H; eauto.
Qed.
Theorem expand_none rules : forall crs form,
  compile_rules rules = Ok crs -> Forall (fun r => rule_ok (fst r) (snd r)) rules -> wf form ->
  (forall p t b, In (p, t) rules -> ~ rule_matches p form b) -> forall fuel, expand fuel crs form = Err.
Proof.
  induction rules as [|[p t] rest IH]; intros crs form C OK W N fuel; cbn [SynModel.compile_rules] in C.
  - injection C as <-. reflexivity.
  - destruct (compile_rule p t) as [r| | |] eqn:E1; cbn [bind] in C; try discriminate.
    destruct (compile_rules rest) as [rs| | |] eqn:E2; cbn [bind] in C; try discriminate. injection C as <-.
    inversion OK; subst. rewrite expand_eq. destruct (rmatch r form) eqn:Em.
    + exfalso. destruct (rule_matched _ _ _ _ _ E1 H1 W Em) as (b & Mb). eapply N; [left; reflexivity|exact Mb].
    + eapply IH; eauto. intros p' t' b I. eapply N. right. exact I.
Qed.
End Proofs.
