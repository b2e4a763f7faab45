(** syntax-rules: the compiled template and its expansion *)
From Coq Require Import ZArith List Bool Arith Lia.
From Verif Require Import Outcome SynModel SynSpec SynProofs SynProofs2.
Import ListNotations.
Ltac Zify.zify_post_hook ::= idtac.

Section Proofs.
Variable ell0 : Z -> bool.
Variable lits : list Z.
Variable rename : Z -> Z.
Notation ell := (SynModel.ell ell0 lits).
Notation is_lit := (SynModel.is_lit lits).
Notation after := (SynSpec.after ell).
Notation tvars := (SynSpec.tvars ell).
Notation inst := (SynSpec.inst ell rename).
Notation rep := (SynSpec.rep ell rename).
Notation ctmpl := (SynModel.ctmpl ell0 lits).
Notation realize := (SynModel.realize rename).

(** ** What the compiler makes of a template *)
Inductive ctd (G : list (Z * pvref)) : bool -> bool -> nat -> datum -> cp -> list pvref -> Prop :=
| ctd_nil on top L : ctd G on top L Nil CNil []
| ctd_atom on top L z : ctd G on top L (Atom z) (CAtom z) []
| ctd_sym on top L s : on && ell s = false -> is_lit s = true \/ assq s G = None -> ctd G on top L (Sym s) (CSym s) []
| ctd_var on top L s l n : on && ell s = false -> is_lit s = false -> assq s G = Some (l, n) -> l <= L ->
    ctd G on top L (Sym s) (CRef l n) [(l, n)]
| ctd_vec on top L l q v : ctd G on true L l q v -> ctd G on top L (Vec l) (CVec q) v
| ctd_esc L e t r q v : ell e = true -> ctd G false true L t q v -> ctd G true true L (Pair (Sym e) (Pair t r)) q v
| ctd_pair on top L a d qa qd va vd :
    (on = true -> after 0 d d) ->
    (on = true -> top = true -> forall e, a = Sym e -> ell e = false) ->
    ctd G on true L a qa va -> ctd G on false L d qd vd ->
    ctd G on top L (Pair a d) (CPair qa qd) (va ++ vd)
| ctd_ell top L a d n r qa qd va vd :
    after (S n) d r -> (top = true -> forall e, a = Sym e -> ell e = false) ->
    ctd G true true (L + S n) a qa va -> existsb (fun v : pvref => S L <=? fst v) va = true ->
    ctd G true false L r qd vd ->
    ctd G true top L (Pair a d) (CPair (outermost (S n) L va qa) qd) (va ++ vd).

(** the levels of the ellipses *)
Fixpoint fits (N : nat) (q : cp) : Prop :=
  match q with
  | CPair a d => fits N a /\ fits N d
  | CVec l => fits N l
  | CEll lev _ sub _ => lev <= N /\ fits N sub
  | _ => True
  end.
Lemma fits_mono N M q : N <= M -> fits N q -> fits M q.
Proof. clear ell0 lits rename. intros H. induction q; cbn; intuition. Qed.
Lemma fits_nest N vs q n : forall L, L + n <= N -> fits N q -> fits N (nest n L vs q).
Proof. induction n as [|n IH]; intros L H F; cbn [nest fits]; auto. split; [lia|]. apply IH; auto. lia. Qed.
Lemma outermost_eq n L va qa : outermost (S n) L va qa = CEll (S L) va (nest n (S L) va qa) 0.
Proof. reflexivity. Qed.

Lemma ellipses_after d : exists q, after (ellipses ell0 lits d) d q.
Proof.
  induction d as [|a _ d IH| | |]; cbn [ellipses]; try (eexists; constructor; intros; discriminate).
  destruct (ell_datum ell0 lits a) eqn:E.
  - destruct a as [| |e| |]; try discriminate. destruct IH as (q & IH). exists q. constructor; auto.
  - eexists. constructor. intros e r X. injection X as -> ->. exact E.
Qed.
Lemma ctmpl_skip on L n : forall d q c, after n d q -> ctmpl on false n L d c = ctmpl on false 0 L q c.
Proof.
  induction n as [|n IH]; intros d q c H; inversion H; subst; [reflexivity|]. cbn [SynModel.ctmpl]. auto.
Qed.
Lemma size_after n d q : after n d q -> size q <= size d.
Proof. induction 1; cbn [size]; lia. Qed.

Lemma ctmpl_pair on top L a d c :
  ctmpl on top 0 L (Pair a d) c =
  match d with
  | Pair t _ =>
      if on && top && ell_datum ell0 lits a then ctmpl false true O L t c
      else
        let n := if on then ellipses ell0 lits d else O in
        if 0 <? n then
          do x <- ctmpl on true O (L + n) a (deepen c (L + n));
          let '(ca, va, c1) := x in
          if existsb (fun v : pvref => S L <=? fst v) va then
            do y <- ctmpl on false n L d c1;
            let '(cd, vd, c2) := y in
            Ok (CPair (outermost n L va ca) cd, va ++ vd, c2)
          else Err
        else
          do x <- ctmpl on true O L a c;
          let '(ca, va, c1) := x in
          do y <- ctmpl on false O L d c1;
          let '(cd, vd, c2) := y in
          Ok (CPair ca cd, va ++ vd, c2)
  | _ =>
      do x <- ctmpl on true O L a c;
      let '(ca, va, c1) := x in
      do y <- ctmpl on false O L d c1;
      let '(cd, vd, c2) := y in
      Ok (CPair ca cd, va ++ vd, c2)
  end.
Proof. destruct d; reflexivity. Qed.

Lemma ctmpl_ctd_size k : forall t on top L c q va c', size t <= k ->
  ctmpl on top 0 L t c = Ok (q, va, c') ->
  ctd (pvars c) on top L t q va /\ pvars c' = pvars c /\ maxlev c <= maxlev c' /\ fits (maxlev c') q.
Proof.
  induction k as [|k IH]; intros t on top L c q va c' K H; [destruct t; cbn in K; lia|].
  destruct t as [|a d|s|z|l].
  - cbn in H. injection H as <- <- <-. cbn. repeat split; auto; constructor.
  - assert (plain : (on = true -> after 0 d d) -> (on = true -> top = true -> ell_datum ell0 lits a = true -> forall t r, d <> Pair t r) ->
      (do x <- ctmpl on true O L a c;
       let '(ca, va, c1) := x in
       do y <- ctmpl on false O L d c1;
       let '(cd, vd, c2) := y in
       Ok (CPair ca cd, va ++ vd, c2)) = Ok (q, va, c') ->
      ctd (pvars c) on top L (Pair a d) q va /\ pvars c' = pvars c /\ maxlev c <= maxlev c' /\ fits (maxlev c') q).
    { intros A ne E. cbn [size] in K.
      destruct (ctmpl on true 0 L a c) as [[[ca v1] c1]| | |] eqn:E1; cbn [bind] in E; try discriminate.
      destruct (ctmpl on false 0 L d c1) as [[[cd v2] c2]| | |] eqn:E2; cbn [bind] in E; try discriminate.
      injection E as <- <- <-.
      assert (X : on = true -> top = true -> forall e, a = Sym e -> ell e = false).
      { intros -> -> e ->. destruct (ell e) eqn:Ee; auto. cbn [SynModel.ctmpl] in E1. rewrite Ee in E1. discriminate. }
      apply IH in E1; [|lia]. apply IH in E2; [|lia].
      destruct E1 as (C1 & P1 & M1 & F1). destruct E2 as (C2 & P2 & M2 & F2). rewrite P1 in *.
      repeat split; auto; [apply ctd_pair; auto|lia|]. eapply fits_mono; [|exact F1]. lia. }
    rewrite ctmpl_pair in H.
    destruct d as [|t r| | |].
    1,3,4,5: apply plain; [intros; constructor; intros; discriminate|intros; discriminate|exact H].
    cbv zeta in H. destruct (on && top && ell_datum ell0 lits a) eqn:E.
    + apply andb_prop in E as [E E3]. apply andb_prop in E as [-> ->]. destruct a as [| |e| |]; try discriminate.
      cbn [size] in K. apply IH in H; [|lia]. destruct H as (C & P & M & F). repeat split; auto. apply ctd_esc; auto.
    + destruct (ellipses_after (Pair t r)) as (w & Aw).
      destruct on.
      * destruct (ellipses ell0 lits (Pair t r)) as [|n] eqn:En; cbn [Nat.ltb Nat.leb] in H.
        -- apply plain; [intros _; inversion Aw; subst; auto| |exact H].
           intros _ -> E'. cbn in E. rewrite E' in E. discriminate.
        -- destruct (ctmpl true true 0 (L + S n) a (deepen c (L + S n))) as [[[ca v1] c1]| | |] eqn:E1; cbn [bind] in H; try discriminate.
           match type of H with (if ?b then _ else _) = _ => destruct b eqn:Ex end; [|discriminate].
           rewrite (ctmpl_skip true L (S n) _ w c1 Aw) in H.
           destruct (ctmpl true false 0 L w c1) as [[[cd v2] c2]| | |] eqn:E2; cbn [bind] in H; try discriminate.
           injection H as <- <- <-. cbn [size] in K.
           pose proof (size_after _ _ _ Aw) as Sw. cbn [size] in Sw.
           assert (X : top = true -> forall e, a = Sym e -> ell e = false).
           { intros -> e ->. cbn in E. exact E. }
           apply IH in E1; [|lia]. apply IH in E2; [|lia].
           destruct E1 as (C1 & P1 & M1 & F1). destruct E2 as (C2 & P2 & M2 & F2). cbn [deepen pvars maxlev] in P1, M1, C1. rewrite P1 in *.
           assert (M3 : maxlev c <= maxlev c1 /\ L + S n <= maxlev c1).
           { destruct (Nat.ltb_spec (maxlev c) (L + S n)); lia. }
           split; [eapply ctd_ell; eauto|]. split; auto. split; [lia|]. rewrite outermost_eq. cbn [fits].
           split; auto. split; [lia|]. apply fits_nest; [lia|]. eapply fits_mono; [|exact F1]. lia.
      * cbn [Nat.ltb Nat.leb] in H. apply plain; auto; discriminate.
  - cbn [SynModel.ctmpl] in H. destruct (on && ell s) eqn:E1; [discriminate|].
    destruct (is_lit s) eqn:E2.
    + injection H as <- <- <-. cbn. repeat split; auto. constructor; auto.
    + destruct (assq s (pvars c)) as [[l n]|] eqn:E3.
      * destruct (Nat.ltb_spec L l); [discriminate|]. injection H as <- <- <-. cbn. repeat split; auto. econstructor; eauto.
      * injection H as <- <- <-. cbn. repeat split; auto. constructor; auto.
  - cbn in H. injection H as <- <- <-. cbn. repeat split; auto; constructor.
  - cbn [SynModel.ctmpl] in H. destruct (ctmpl on true 0 L l c) as [[[cl v1] c1]| | |] eqn:E1; cbn [bind] in H; try discriminate.
    injection H as <- <- <-. cbn [size] in K. apply IH in E1; [|lia].
    destruct E1 as (C1 & P1 & M1 & F1). repeat split; auto. constructor; auto.
Qed.
Lemma ctmpl_ctd t on top L c q va c' :
  ctmpl on top 0 L t c = Ok (q, va, c') ->
  ctd (pvars c) on top L t q va /\ pvars c' = pvars c /\ maxlev c <= maxlev c' /\ fits (maxlev c') q.
Proof. eapply ctmpl_ctd_size. apply le_n. Qed.

Lemma ctd_not_ell G on top L t q v : ctd G on top L t q v -> is_ell q = false.
Proof. induction 1; cbn [is_ell]; auto. Qed.

(** the variables of the compiled template are those of the template *)
Lemma tvars_pair on top a d : (on = true -> top = true -> forall e, a = Sym e -> ell e = false) ->
  tvars on top (Pair a d) = tvars on true a ++ tvars on false d.
Proof.
  intros H. cbn [SynSpec.tvars]. destruct a; auto. destruct d; auto.
  destruct on, top; auto. cbn [andb]. rewrite (H eq_refl eq_refl s eq_refl). reflexivity.
Qed.
Lemma after_vars n d q s : after n d q -> In s (tvars true false d) -> ell s = true \/ In s (tvars true false q).
Proof.
  induction 1; auto. intros I. rewrite tvars_pair in I by discriminate. apply in_app_iff in I as [I|I]; auto.
  cbn in I. destruct I as [<-|[]]. auto.
Qed.
Lemma after_vars' n d q s : after n d q -> In s (tvars true false q) -> In s (tvars true false d).
Proof. induction 1; auto. intros I. rewrite tvars_pair by discriminate. apply in_app_iff. auto. Qed.

Variable G : list (Z * pvref).
Hypothesis G_names : forall s v, assq s G = Some v -> is_lit s = false /\ ell s = false.

Lemma ctd_vars on top L t q va : ctd G on top L t q va ->
  (forall l n, In (l, n) va -> exists s, In s (tvars on top t) /\ assq s G = Some (l, n)) /\
  (forall s l n, In s (tvars on top t) -> assq s G = Some (l, n) -> In (l, n) va).
Proof.
  induction 1.
  - split; [intros ? ? []|intros ? ? ? []].
  - split; [intros ? ? []|intros ? ? ? []].
  - split; [intros ? ? []|]. intros s' l n [<-|[]] E. destruct H0 as [H0|H0]; [|congruence].
    apply G_names in E. destruct E. congruence.
  - split.
    + intros l' n' [E|[]]. injection E as <- <-. exists s. split; auto. cbn. auto.
    + intros s' l' n' [<-|[]] E. rewrite H1 in E. injection E as -> ->. cbn. auto.
  - exact IHctd.
  - cbn [SynSpec.tvars]. rewrite H. exact IHctd.
  - destruct IHctd1 as [A1 A2]. destruct IHctd2 as [B1 B2]. rewrite tvars_pair by auto. split.
    + intros l n I. apply in_app_iff in I as [I|I].
      * destruct (A1 l n I) as (s & J & E). exists s. rewrite in_app_iff. auto.
      * destruct (B1 l n I) as (s & J & E). exists s. rewrite in_app_iff. auto.
    + intros s l n I E. rewrite in_app_iff in *. destruct I as [I|I]; eauto.
  - destruct IHctd1 as [A1 A2]. destruct IHctd2 as [B1 B2]. rewrite tvars_pair by auto. split.
    + intros l n' I. apply in_app_iff in I as [I|I].
      * destruct (A1 l n' I) as (s & J & E). exists s. rewrite in_app_iff. auto.
      * destruct (B1 l n' I) as (s & J & E). exists s. rewrite in_app_iff. split; auto. right. eapply after_vars'; eauto.
    + intros s l n' I E. rewrite in_app_iff in *. destruct I as [I|I]; eauto.
      destruct (after_vars _ _ _ s H I) as [J|J]; eauto. apply G_names in E. destruct E. congruence.
Qed.

(** ** Realization *)
Variable mv : matchvec.
Variable sz : nat.

Lemma descend_app a : forall b t i I,
  descend t i (a + b) I = match descend t i a I with inl t' => descend t' (i + a) b I | inr e => inr e end.
Proof.
  induction a as [|a IH]; intros b t i I.
  - cbn. rewrite Nat.add_0_r. reflexivity.
  - cbn [Nat.add descend]. destruct t; auto. destruct (nth_error l (I i)); auto. rewrite IH. cbn. rewrite <- plus_n_Sm. reflexivity.
Qed.
Lemma descend_ext n : forall t i I J, (forall k, i <= k < i + n -> I k = J k) -> descend t i n I = descend t i n J.
Proof.
  induction n as [|n IH]; intros t i I J H; [reflexivity|]. cbn [descend]. destruct t; auto.
  rewrite (H i) by lia. destruct (nth_error l (J i)); auto. apply IH. intros. apply H. lia.
Qed.

Definition eloop (body : nat -> res rval) (lev : nat) (subell : bool) :=
  fix loop (n i : nat) (acc : datum) : res rval :=
    match n with
    | O => UB
    | S n' =>
        do r <- body i;
        match r with
        | Unbound e => Ok (if e <? lev then r else Val acc)
        | Val d => loop n' (S i) (dappend acc (if subell then d else Pair d Nil))
        end
    end.
Lemma realize_ell fuel L I lev vs sub f :
  realize fuel sz mv L I (CEll lev vs sub f) =
  if sz <=? S L then UB
  else eloop (fun i => realize fuel sz mv (S L) (set_index I (S L) i) sub) lev (is_ell sub) fuel 0 Nil.
Proof. reflexivity. Qed.
Lemma dappend_tail xs y : dappend (list_tail xs Nil) y = list_tail xs y.
Proof. induction xs; cbn; congruence. Qed.
Lemma list_tail_app xs ys z : list_tail (xs ++ ys) z = list_tail xs (list_tail ys z).
Proof. induction xs; cbn; congruence. Qed.
Lemma eloop_all (body : nat -> res rval) lev (subell : bool) e : forall (dss : list (list datum)) i n acc,
  (forall j, j < length dss -> exists d, body (i + j) = Ok (Val d) /\ (if subell then d else Pair d Nil) = list_tail (nth j dss []) Nil) ->
  body (i + length dss) = Ok (Unbound e) -> lev <= e -> length dss < n ->
  eloop body lev subell n i (list_tail acc Nil) = Ok (Val (list_tail (acc ++ concat dss) Nil)).
Proof.
  induction dss as [|ds dss IH]; intros i n acc B E Le N; (destruct n as [|n]; [cbn in N; lia|]); cbn [eloop].
  - cbn [length] in E. rewrite Nat.add_0_r in E. rewrite E. cbn [bind concat]. rewrite app_nil_r.
    destruct (Nat.ltb_spec e lev); [lia|]. reflexivity.
  - destruct (B 0 ltac:(cbn; lia)) as (d & Ed & Hd). rewrite Nat.add_0_r in Ed. rewrite Ed. cbn [bind]. rewrite Hd. cbn [nth].
    rewrite dappend_tail, <- list_tail_app. cbn [concat]. rewrite app_assoc. apply IH; auto.
    + intros j J. destruct (B (S j) ltac:(cbn; lia)) as (d' & Ed' & Hd'). exists d'. rewrite <- plus_n_Sm in Ed'. auto.
    + cbn [length] in E. rewrite <- plus_n_Sm in E. exact E.
    + cbn [length] in N. lia.
Qed.

(** when the sequences are exhausted at level [S K] *)
Definition agree (K : nat) (I J : nat -> nat) : Prop := forall k, k <= S K -> J k = I k.
Lemma agree_set K I J L i : agree K I J -> K < L -> agree K I (set_index J (S L) i).
Proof. intros A H k Hk. unfold set_index. destruct (Nat.eqb_spec k (S L)); [lia|]. auto. Qed.
Definition dead (K : nat) (va : list pvref) (r : res rval) : Prop :=
  if existsb (fun v : pvref => K <? fst v) va then r = Ok (Unbound (S K)) else exists d : datum, r = Ok (Val d).

Lemma nest_dead K I vs qa n : forall L J fuel, K < L -> agree K I J -> 1 <= fuel -> fits (sz - 1) (nest n L vs qa) ->
  (forall J', agree K I J' -> realize fuel sz mv (L + n) J' qa = Ok (Unbound (S K))) ->
  realize fuel sz mv L J (nest n L vs qa) = Ok (Unbound (S K)).
Proof.
  induction n as [|n IH]; intros L J fuel HL A Fu F H; cbn [nest] in *.
  - rewrite Nat.add_0_r in H. auto.
  - rewrite realize_ell. cbn [fits] in F. destruct F as [F1 F2]. destruct (Nat.leb_spec sz (S L)); [lia|].
    destruct fuel; [lia|]. cbn [eloop].
    rewrite IH; auto; [cbn [bind]| |].
    + destruct (Nat.ltb_spec (S K) (S L)); [reflexivity|lia].
    + apply agree_set; auto.
    + replace (S L + n) with (L + S n) by lia. exact H.
Qed.

Lemma existsb_weaken K L (va : list pvref) : K < L -> existsb (fun v : pvref => S L <=? fst v) va = true -> existsb (fun v : pvref => K <? fst v) va = true.
Proof.
  intros H E. apply existsb_exists in E. destruct E as (v & I & E). apply existsb_exists. exists v. split; auto.
  apply Nat.leb_le in E. apply Nat.ltb_lt. lia.
Qed.
Lemma ctd_dead K I fuel on top L t q va : ctd G on top L t q va -> K < L -> 1 <= fuel -> fits (sz - 1) q ->
  (forall l n, In (l, n) va -> forall J, agree K I J ->
     if K <? l then descend (root (mv n)) 1 l J = inr (S K) else exists tr, descend (root (mv n)) 1 l J = inl tr) ->
  forall J, agree K I J -> dead K va (realize fuel sz mv L J q).
Proof.
  induction 1; intros HL Fu F V J A.
  - cbn. eexists. reflexivity.
  - cbn. eexists. reflexivity.
  - cbn. eexists. reflexivity.
  - cbn [SynModel.realize]. unfold dead, get_pvref_value. cbn [existsb fst]. specialize (V l n (or_introl eq_refl) J A).
    destruct (K <? l); cbn [orb].
    + rewrite V. reflexivity.
    + destruct V as (tr & ->). eauto.
  - cbn [SynModel.realize]. cbn [fits] in F. specialize (IHctd HL Fu F V J A). unfold dead in *.
    destruct (existsb (fun v0 : pvref => K <? fst v0) v).
    + rewrite IHctd. reflexivity.
    + destruct IHctd as (x & ->). cbn. eauto.
  - auto.
  - cbn [SynModel.realize]. cbn [fits] in F. destruct F as [F1 F2].
    specialize (IHctd1 HL Fu F1 (fun l n I => V l n (proj2 (in_app_iff _ _ _) (or_introl I))) J A).
    specialize (IHctd2 HL Fu F2 (fun l n I => V l n (proj2 (in_app_iff _ _ _) (or_intror I))) J A).
    unfold dead in *. rewrite existsb_app. destruct (existsb (fun v : pvref => K <? fst v) va); cbn [orb].
    + rewrite IHctd1. reflexivity.
    + destruct IHctd1 as (x & ->). cbn [bind]. destruct (existsb (fun v : pvref => K <? fst v) vd).
      * rewrite IHctd2. reflexivity.
      * destruct IHctd2 as (y & ->). cbn [bind]. eauto.
  - apply (existsb_weaken K) in H2; auto. unfold dead. rewrite existsb_app, H2. cbn [orb].
    rewrite outermost_eq in *. cbn [fits] in F. destruct F as [F1 F2].
    assert (R : realize fuel sz mv L J (CEll (S L) va (nest n (S L) va qa) 0) = Ok (Unbound (S K))).
    { change (realize fuel sz mv L J (nest (S n) L va qa) = Ok (Unbound (S K))).
      apply (nest_dead K I); auto. intros J' A'.
      assert (Fq : fits (sz - 1) qa).
      { destruct F1 as [_ F1]. clear - F1. revert F1. generalize (S L). induction n; intros M F1; cbn in F1; auto.
        destruct F1. eauto. }
      specialize (IHctd1 ltac:(lia) Fu Fq (fun l n I => V l n (proj2 (in_app_iff _ _ _) (or_introl I))) J' A').
      unfold dead in IHctd1. rewrite H2 in IHctd1. exact IHctd1. }
    cbn [SynModel.realize] in R |- *. rewrite R. reflexivity.
Qed.

(** ** Instances *)
Fixpoint depth (k : nat) (t : tree) : Prop :=
  match k, t with
  | O, Leaf _ => True
  | S k', Node l => (fix all l := match l with [] => True | x :: r => depth k' x /\ all r end) l
  | _, _ => False
  end.
Lemma depth_node k l : depth (S k) (Node l) <-> Forall (depth k) l.
Proof.
  induction l as [|x l IH]; [split; [constructor|exact (fun _ => Logic.I)]|]. cbn [depth] in *. split.
  - intros [A B]. constructor; auto. apply IH. exact B.
  - intros H. inversion H; subst. split; auto. apply IH. auto.
Qed.

Definition env (L : nat) (I : nat -> nat) (b : list (Z * tree)) (vs : list Z) : Prop :=
  (forall s l n, In s vs -> assq s G = Some (l, n) ->
     exists tr, lookup s b = Some tr /\ depth (l - L) tr /\ descend (root (mv n)) 1 (min l L) I = inl tr) /\
  (forall s, assq s G = None -> lookup s b = None).
Lemma env_incl L I b vs ws : env L I b vs -> (forall s, In s ws -> ell s = true \/ In s vs) -> env L I b ws.
Proof.
  intros [A B] H. split; auto. intros s l n J E. destruct (H s J) as [K|K]; eauto.
  apply G_names in E. destruct E. congruence.
Qed.
Lemma lookup_slice i s b : lookup s (slice i b) = option_map (fun t => match t with Node l => nth i l (Node []) | t => t end) (lookup s b).
Proof. induction b as [|[k v] b IH]; cbn [slice map lookup fst snd]; auto. destruct (Z.eqb s k); [destruct v; reflexivity|exact IH]. Qed.
Lemma env_slice L I b vs i m : env L I b vs -> i < m ->
  (forall s l, In s vs -> lookup s b = Some (Node l) -> length l = m) ->
  env (S L) (set_index I (S L) i) (slice i b) vs.
Proof.
  intros [A B] Hi Hm. split.
  - intros s l n J E. destruct (A s l n J E) as (tr & E1 & D & Ds).
    rewrite lookup_slice, E1. cbn [option_map].
    assert (X : forall k, 1 <= k < 1 + min l L -> I k = set_index I (S L) i k).
    { intros k K. unfold set_index. destruct (Nat.eqb_spec k (S L)); [lia|reflexivity]. }
    rewrite (descend_ext _ _ _ _ _ X) in Ds.
    destruct (Nat.le_gt_cases l L).
    + replace (l - L) with 0 in D by lia. destruct tr; [|contradiction].
      eexists. split; [reflexivity|]. replace (l - S L) with 0 by lia. split; [exact Logic.I|].
      replace (min l (S L)) with (min l L) by lia. exact Ds.
    + replace (l - L) with (S (l - S L)) in D by lia. destruct tr as [|ts]; [contradiction|].
      apply depth_node in D. pose proof (Hm s ts J E1) as Lt.
      eexists. split; [reflexivity|]. split.
      * rewrite Forall_forall in D. apply D. apply nth_In. lia.
      * replace (min l (S L)) with (min l L + 1) by lia. rewrite descend_app, Ds.
        replace (1 + min l L) with (S L) by lia. cbn [descend]. unfold set_index. rewrite Nat.eqb_refl.
        rewrite (nth_error_nth' ts (Node [])) by lia. reflexivity.
  - intros s E. rewrite lookup_slice, (B s E). reflexivity.
Qed.

Lemma finite_choice (P : nat -> nat -> Prop) m :
  (forall i, i < m -> exists F, forall f, F <= f -> P i f) -> exists F, forall f, F <= f -> forall i, i < m -> P i f.
Proof.
  induction m as [|m IH]; intros H.
  - exists 0. intros. lia.
  - destruct IH as (F1 & H1); [intros; apply H; lia|]. destruct (H m ltac:(lia)) as (F2 & H2).
    exists (F1 + F2). intros f Hf i Hi. destruct (Nat.eq_dec i m) as [->|N]; [apply H2; lia|apply H1; lia].
Qed.

Scheme inst_ind2 := Minimality for SynSpec.inst Sort Prop
  with rep_ind2 := Minimality for SynSpec.rep Sort Prop.

Lemma fits_sub L n vs qa : fits (sz - 1) (nest n L vs qa) -> fits (sz - 1) qa.
Proof. revert L. induction n; intros L F; cbn in F; auto. destruct F. eauto. Qed.

Lemma after_0_eq d q : after 0 d q -> q = d.
Proof. inversion 1; reflexivity. Qed.
Lemma after_fun n d q : after n d q -> forall n' q', after n' d q' -> n = n' /\ q = q'.
Proof.
  induction 1; intros n' q' H'.
  - inversion H'; subst; auto. specialize (H e d eq_refl). congruence.
  - inversion H'; subst.
    + specialize (H1 e d eq_refl). congruence.
    + destruct (IHafter _ _ H6) as [-> ->]. auto.
Qed.

Theorem inst_realize on top t b d : inst on top t b d ->
  forall L I q va, ctd G on top L t q va -> env L I b (tvars on top t) -> fits (sz - 1) q ->
  exists F, forall fuel, F <= fuel -> realize fuel sz mv L I q = Ok (Val d).
Proof.
  revert on top t b d.
  apply (inst_ind2 ell rename
    (fun on top t b d => forall L I q va, ctd G on top L t q va -> env L I b (tvars on top t) -> fits (sz - 1) q ->
       exists F, forall fuel, F <= fuel -> realize fuel sz mv L I q = Ok (Val d))
    (fun n a b ds => forall L I qa va vs, ctd G true true (L + n) a qa va -> env L I b (tvars true true a) -> fits (sz - 1) (nest n L vs qa) ->
       exists F, forall fuel, F <= fuel -> exists d, realize fuel sz mv L I (nest n L vs qa) = Ok (Val d) /\
         (if is_ell (nest n L vs qa) then d else Pair d Nil) = list_tail ds Nil)).
  - intros on top s b d E L I q va C [V1 V2] F. inversion C; subst.
    + exfalso. destruct (assq s G) as [[l n]|] eqn:Ea.
      * match goal with H : _ \/ _ |- _ => destruct H end; [apply G_names in Ea; destruct Ea; congruence|discriminate].
      * rewrite V2 in E; [discriminate|exact Ea].
    + exists 0. intros fuel _. cbn [SynModel.realize]. destruct (V1 s l n (or_introl eq_refl) ltac:(eassumption)) as (tr & E1 & D & Ds).
      rewrite E in E1. injection E1 as <-. unfold get_pvref_value. replace (min l L) with l in Ds by lia. rewrite Ds. reflexivity.
  - intros on top s b E L I q va C [V1 V2] F. inversion C; subst.
    + exists 0. intros fuel _. reflexivity.
    + exfalso. destruct (V1 s l n (or_introl eq_refl) ltac:(eassumption)) as (tr & E1 & D & Ds). congruence.
  - intros on top b L I q va C V F. inversion C; subst. exists 0. reflexivity.
  - intros on top z b L I q va C V F. inversion C; subst. exists 0. reflexivity.
  - intros on top l b d _ IH L I q va C V F. inversion C; subst. match goal with X : ctd _ _ _ _ l _ _ |- _ => destruct (IH L I _ _ X V F) as (F0 & H) end.
    exists F0. intros fuel Hf. cbn [SynModel.realize]. rewrite H by auto. reflexivity.
  - intros e t b d E _ IH L I q va C V F. inversion C; subst.
    + match goal with X : ctd _ _ _ _ t _ _ |- _ => apply (IH L I _ _ X); auto end. cbn [SynSpec.tvars] in V. rewrite E in V. exact V.
    + match goal with X : true = true -> true = true -> forall e0, _ |- _ => specialize (X eq_refl eq_refl e eq_refl) end. congruence.
    + match goal with X : true = true -> forall e0, _ |- _ => specialize (X eq_refl e eq_refl) end. congruence.
  - intros on top a d b d1 d2 A N _ IH1 _ IH2 L I q va C V F. inversion C; subst.
    + specialize (N eq_refl eq_refl e eq_refl). congruence.
    + rewrite tvars_pair in V by auto. cbn [fits] in F. destruct F as [F1 F2].
      match goal with X : ctd _ _ true _ a _ _, Y : ctd _ _ false _ d _ _ |- _ => rename X into H7; rename Y into H8 end.
      destruct (IH1 L I _ _ H7) as (X1 & R1); auto. { eapply env_incl; [exact V|]. intros. rewrite in_app_iff. auto. }
      destruct (IH2 L I _ _ H8) as (X2 & R2); auto. { eapply env_incl; [exact V|]. intros. rewrite in_app_iff. auto. }
      exists (X1 + X2). intros fuel Hf. cbn [SynModel.realize]. rewrite R1, R2 by lia. cbn [bind].
      rewrite (ctd_not_ell _ _ _ _ _ _ _ H7). reflexivity.
    + match goal with X : SynSpec.after _ (S _) d _ |- _ => destruct (after_fun _ _ _ (A eq_refl) _ _ X) end. discriminate.
  - intros top a d b n q ds d2 A N _ IH1 _ IH2 L I q0 va C V F. inversion C; subst.
    + specialize (N eq_refl e eq_refl). congruence.
    + match goal with X : true = true -> SynSpec.after _ 0 d _ |- _ => destruct (after_fun _ _ _ A _ _ (X eq_refl)) end. discriminate.
    + match goal with X : ctd _ _ true _ a _ _, Y : ctd _ _ false _ _ _ _, W : SynSpec.after _ (S ?n1) d ?r1, _ : existsb _ _ = true |- _ => lazymatch W with A => fail | _ => rename X into H5; rename Y into H9; destruct (after_fun _ _ _ A _ _ W) as [E ->]; injection E as <- end end.
      rewrite tvars_pair in V by auto. cbn [fits] in F. destruct F as [F1 F2].
      change (fits (sz - 1) (nest (S n) L va0 qa)) in F1.
      destruct (IH1 L I qa va0 va0 H5) as (X1 & R1); auto. { eapply env_incl; [exact V|]. intros. rewrite in_app_iff. auto. }
      destruct (IH2 L I _ _ H9) as (X2 & R2); auto.
      { eapply env_incl; [exact V|]. intros s J. right. rewrite in_app_iff. right. eapply after_vars'; eauto. }
      exists (X1 + X2). intros fuel Hf. destruct (R1 fuel ltac:(lia)) as (x & Rx & Ex).
      change (realize fuel sz mv L I (outermost (S n) L va0 qa) = Ok (Val x)) in Rx.
      rewrite outermost_eq in *. cbn [is_ell nest] in Ex. subst x.
      cbn [SynModel.realize] in Rx |- *. rewrite Rx. cbn [bind]. rewrite R2 by lia. cbn [bind is_ell].
      rewrite dappend_tail. reflexivity.
  - intros a b d _ IH L I qa va vs C V F. rewrite Nat.add_0_r in C. cbn [nest] in *.
    destruct (IH L I _ _ C V F) as (X & R). exists X. intros fuel Hf. exists d. split; auto.
    rewrite (ctd_not_ell _ _ _ _ _ _ _ C). reflexivity.
  - intros n a b m dss Hex Hm Hl _ IH L I qa va vs C V F.
    set (vs' := if n =? 0 then vs else []). pose proof F as F'. cbn [nest] in F. cbn [fits] in F. destruct F as [F1 F2].
    assert (BD : exists X, forall fuel, X <= fuel -> forall i, i < m -> exists d,
        realize fuel sz mv (S L) (set_index I (S L) i) (nest n (S L) vs qa) = Ok (Val d) /\
        (if is_ell (nest n (S L) vs qa) then d else Pair d Nil) = list_tail (nth i dss []) Nil).
    { apply finite_choice with (P := fun i fuel => exists d,
        realize fuel sz mv (S L) (set_index I (S L) i) (nest n (S L) vs qa) = Ok (Val d) /\
        (if is_ell (nest n (S L) vs qa) then d else Pair d Nil) = list_tail (nth i dss []) Nil).
      intros i Hi. apply (IH i Hi (S L) _ qa va vs); auto.
      - replace (S L + n) with (L + S n) by lia. exact C.
      - eapply env_slice; eauto. }
    destruct BD as (X & BD). exists (X + S m). intros fuel Hf. exists (list_tail (concat dss) Nil).
    split; [|reflexivity]. cbn [nest]. rewrite realize_ell. destruct (Nat.leb_spec sz (S L)); [lia|].
    apply (eloop_all _ _ _ (S L) dss 0 fuel []).
    + intros j Hj. rewrite Hl in Hj. apply BD; [lia|exact Hj].
    + cbn [Nat.add]. rewrite Hl. apply (nest_dead L (set_index I (S L) m)); auto; [intros k _; reflexivity|lia|].
      intros J A. destruct (ctd_vars _ _ _ _ _ _ C) as [CV1 CV2]. destruct V as [V1 V2].
      assert (D : dead L va (realize fuel sz mv (S L + n) J qa)).
      { replace (S L + n) with (L + S n) by lia.
        apply (ctd_dead L (set_index I (S L) m) fuel _ _ _ _ _ _ C); auto; [lia|lia|eapply fits_sub; exact F2|].
        intros l n' Iv J' A'. destruct (CV1 l n' Iv) as (s & Is & Es). destruct (V1 s l n' Is Es) as (tr & E1 & Dp & Ds).
        assert (Ds' : descend (root (mv n')) 1 (min l L) J' = inl tr).
        { rewrite <- Ds. apply descend_ext. intros k Hk. rewrite A' by lia. unfold set_index. destruct (Nat.eqb_spec k (S L)); [lia|reflexivity]. }
        destruct (Nat.ltb_spec L l) as [Hl'|Hl'].
        - replace (l - L) with (S (l - S L)) in Dp by lia. destruct tr as [|ts]; [contradiction|].
          pose proof (Hm s ts Is E1) as Lt.
          replace l with (min l L + (1 + (l - S L))) at 1 by lia. rewrite descend_app, Ds'.
          replace (1 + min l L) with (S L) by lia. cbn [Nat.add descend]. rewrite A' by lia. unfold set_index. rewrite Nat.eqb_refl.
          replace (nth_error ts m) with (@None tree) by (symmetry; apply nth_error_None; lia). reflexivity.
        - replace (min l L) with l in Ds' by lia. eauto. }
      unfold dead in D. replace (existsb (fun v : pvref => L <? fst v) va) with true in D; [exact D|].
      symmetry. apply existsb_exists. destruct Hex as (s & ts & Is & Es).
      destruct (assq s G) as [[l n']|] eqn:Ea; [|rewrite (V2 s Ea) in Es; discriminate].
      exists (l, n'). split; [eapply CV2; eauto|]. destruct (V1 s l n' Is Ea) as (tr & E1 & Dp & _).
      rewrite Es in E1. injection E1 as <-. apply Nat.ltb_lt. cbn [fst].
      destruct (Nat.le_gt_cases l L); [|auto]. replace (l - L) with 0 in Dp by lia. contradiction.
    + auto.
    + rewrite Hl. lia.
Qed.
End Proofs.
