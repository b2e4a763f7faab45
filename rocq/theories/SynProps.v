(** C51: syntax-rules (src/macro.c) *)
From Coq Require Import ZArith List Bool Arith Lia.
From Verif Require Import Outcome SynModel SynSpec SynProofs SynProofs2 SynProofs3 SynProofs4.
Import ListNotations.

Section Props.
(** the ellipsis, the underscore, the literals of the macro; the comparison of a literal with
    a form and the renaming of an inserted identifier during this expansion *)
Variable ell0 : Z -> bool.
Variable under : Z -> bool.
Variable lits : list Z.
Variable same : Z -> datum -> bool.
Variable rename : Z -> Z.
Notation ell := (ellipsis ell0 lits).
Notation lit := (literal lits).

(** The use of a macro expands to the instance of the template of the first rule that matches. *)
Theorem syntax_rules_expand rules crs form t b d :
  compile_rules ell0 under lits rules = Ok crs ->
  Forall (fun r => covered ell (fst r) (snd r)) rules -> wf form ->
  first_match ell lit under same rules form t b ->
  inst ell rename true true t b d ->
  exists F, forall fuel, F <= fuel -> expand same rename fuel crs form = Ok d.
Proof. exact (expand_first ell0 under lits same rename rules crs form t b d). Qed.
(** Without a rule that matches the use is an error. *)
Theorem syntax_rules_no_match rules crs form :
  compile_rules ell0 under lits rules = Ok crs ->
  Forall (fun r => covered ell (fst r) (snd r)) rules -> wf form ->
  (forall p t b, In (p, t) rules -> ~ rule_matches ell lit under same p form b) ->
  forall fuel, expand same rename fuel crs form = Err.
Proof. exact (expand_none ell0 under lits same rename rules crs form). Qed.
(** The bindings of a match are unique. *)
Theorem matches_unique p q va c' f b1 b2 :
  cpat ell0 under lits true false 0 p (Ctx [] 0 0) = Ok (q, va, c') ->
  matches ell lit under same p f b1 -> matches ell lit under same p f b2 -> b1 = b2.
Proof.
  intros C. apply cpat_cpd in C. destruct C as (v & C & _). revert f b1 b2.
  induction C; intros f b1 b2 M1 M2.
  - destruct M1, M2. congruence.
  - destruct M1, M2. congruence.
  - cbn [matches] in M1, M2. unfold literal in M1, M2. unfold SynModel.is_lit in H0. rewrite H0 in *. destruct M1, M2. congruence.
  - cbn [matches] in M1, M2. unfold literal in M1, M2. unfold SynModel.is_lit in H0. rewrite H0, H1 in *. congruence.
  - cbn [matches] in M1, M2. unfold literal in M1, M2. unfold SynModel.is_lit in H0. rewrite H0, H1 in *. congruence.
  - destruct M1 as (fl & -> & M1). destruct M2 as (fl2 & E & M2). injection E as <-. eauto.
  - apply matches_pair in M1; auto. apply matches_pair in M2; auto.
    destruct M1 as (f1 & f2 & x1 & x2 & -> & A1 & A2 & ->). destruct M2 as (f3 & f4 & y1 & y2 & E & B1 & B2 & ->).
    injection E as <- <-. f_equal; eauto.
  - apply matches_ell in M1; auto. apply matches_ell in M2; auto.
    destruct M1 as (fs & g & bs & x2 & -> & N1 & A1 & A2 & ->). destruct M2 as (fs' & g' & bs' & y2 & E & N2 & B1 & B2 & ->).
    assert (fs = fs' /\ g = g') as [<- <-].
    { rewrite <- N2 in N1. clear - E N1. revert fs' E. induction fs as [|f fs IH]; intros [|f' fs'] E; cbn [list_tail] in E; auto.
      - subst g. cbn [count] in N1. exfalso. assert (K : count g' <= count (list_tail fs' g')) by (clear; induction fs'; cbn; lia). lia.
      - subst g'. cbn [count] in N1. exfalso. assert (K : count g <= count (list_tail fs g)) by (clear; induction fs; cbn; lia). lia.
      - injection E as <- E. destruct (IH _ E) as [-> ->]. auto. }
    assert (bs = bs') as <-.
    { clear - A1 B1 IHC1. revert bs' B1. induction A1; intros bs' B1; inversion B1; subst; auto. f_equal; eauto. }
    f_equal; eauto.
Qed.
End Props.

(** ** A concrete macro: (_ x (y z ...) ...) with the template ((x y z ...) ... x) *)
Section Example_.
Let DOTS := 0%Z. Let US := 1%Z. Let X := 2%Z. Let Y := 3%Z. Let ZZ := 4%Z.
Let is_dots := fun s => Z.eqb s DOTS. Let is_us := fun s => Z.eqb s US.
Let same := fun s (d : datum) => match d with Sym s' => Z.eqb s s' | _ => false end.
Let ren := fun s => (s + 1000)%Z.
Fixpoint L (l : list datum) : datum := match l with [] => Nil | a :: r => Pair a (L r) end.
Let dots := Sym DOTS.
Let pat := L [Sym US; Sym X; L [Sym Y; Sym ZZ; dots]; dots].
Let tmpl := L [L [Sym X; Sym Y; Sym ZZ; dots]; dots; Sym X; Sym 7%Z].
Let form := L [Sym 9%Z; Atom 1; L [Atom 2; Atom 3; Atom 4]; L [Atom 5]].
Let result := L [L [Atom 1; Atom 2; Atom 3; Atom 4]; L [Atom 1; Atom 5]; Atom 1; Sym 1007%Z].
Let b := [(X, Leaf (Atom 1)); (Y, Node [Leaf (Atom 2); Leaf (Atom 5)]); (ZZ, Node [Node [Leaf (Atom 3); Leaf (Atom 4)]; Node []])].
Example ex_compile : exists crs, compile_rules is_dots is_us [] [(pat, tmpl)] = Ok crs /\ expand same ren 5 crs form = Ok result.
Proof. eexists. split; reflexivity. Qed.
Example ex_covered : Forall (fun r => covered (ellipsis is_dots []) (fst r) (snd r)) [(pat, tmpl)] /\ wf form.
Proof. split; [constructor; [|constructor]|]; vm_compute; repeat split; repeat constructor. Qed.
Example ex_first : first_match (ellipsis is_dots []) (literal []) is_us same [(pat, tmpl)] form tmpl b.
Proof.
  apply fm_here. unfold rule_matches, pat. cbn [L]. exists (Sym 9%Z), (L [Atom 1; L [Atom 2; Atom 3; Atom 4]; L [Atom 5]]).
  split; [reflexivity|]. apply (matches_pair is_dots is_us []); [intros e r E; discriminate|].
  exists (Atom 1), (L [L [Atom 2; Atom 3; Atom 4]; L [Atom 5]]), [(X, Leaf (Atom 1))], (tl b). split; [reflexivity|]. split; [reflexivity|]. split; [|reflexivity].
  apply (matches_ell is_dots is_us []); [reflexivity|].
  exists [L [Atom 2; Atom 3; Atom 4]; L [Atom 5]], Nil,
    [[(Y, Leaf (Atom 2)); (ZZ, Node [Leaf (Atom 3); Leaf (Atom 4)])]; [(Y, Leaf (Atom 5)); (ZZ, Node [])]], [].
  split; [reflexivity|]. split; [reflexivity|]. split; [|split; [split; reflexivity|reflexivity]].
  assert (H : forall y zs, matches (ellipsis is_dots []) (literal []) is_us same (L [Sym Y; Sym ZZ; dots]) (Pair y (L zs)) [(Y, Leaf y); (ZZ, Node (map Leaf zs))]).
  { intros y zs. apply (matches_pair is_dots is_us []); [intros e r E; injection E as <- <-; reflexivity|].
    exists y, (L zs), [(Y, Leaf y)], [(ZZ, Node (map Leaf zs))]. split; [reflexivity|]. split; [reflexivity|]. split; [|reflexivity].
    apply (matches_ell is_dots is_us []); [reflexivity|].
    exists zs, Nil, (map (fun z => [(ZZ, Leaf z)]) zs), []. split; [clear; induction zs; cbn; congruence|]. split; [reflexivity|].
    split; [clear; induction zs; constructor; auto; reflexivity|]. split; [split; reflexivity|].
    cbn. rewrite map_map. reflexivity. }
  constructor; [apply (H (Atom 2) [Atom 3; Atom 4])|]. constructor; [apply (H (Atom 5) [])|constructor].
Qed.
Example ex_inst : inst (ellipsis is_dots []) ren true true tmpl b result.
Proof.
  unfold tmpl, result. cbn [L].
  assert (A0 : forall d, (forall r, d <> Pair dots r) -> after (ellipsis is_dots []) 0 d d).
  { intros d H. constructor. intros e r ->. destruct (Z.eqb_spec e DOTS) as [->|N]; [destruct (H r eq_refl)|].
    unfold ellipsis, is_dots. destruct (Z.eqb_spec e DOTS); [contradiction|reflexivity]. }
  apply (inst_ellipsis _ _ true _ _ b 0 (L [Sym X; Sym 7%Z])
           (concat [[L [Atom 1; Atom 2; Atom 3; Atom 4]]; [L [Atom 1; Atom 5]]]) (L [Atom 1; Sym 1007%Z])).
  - constructor; [reflexivity|]. apply A0. intros r E. discriminate.
  - intros _ e E. discriminate.
  - apply rep_S with (m := 2); [exists Y; eexists; split; [cbn; auto|reflexivity]| |reflexivity|].
    + intros s l I E. cbn in I. destruct I as [<-|[<-|[<-|[<-|[]]]]]; cbn in E; try discriminate; injection E as <-; reflexivity.
    + assert (R : forall b' z zs, lookup X b' = Some (Leaf (Atom 1)) -> lookup Y b' = Some (Leaf z) -> lookup ZZ b' = Some (Node (map Leaf zs)) -> lookup DOTS b' = None ->
        rep (ellipsis is_dots []) ren 0 (L [Sym X; Sym Y; Sym ZZ; dots]) b' [Pair (Atom 1) (Pair z (list_tail zs Nil))]).
      { intros b' z zs E1 E2 E3 E4. constructor. cbn [L].
        apply inst_pair; [intros _; apply A0; intros r E; discriminate|intros _ _ e E; injection E as <-; reflexivity|constructor; exact E1|].
        apply inst_pair; [intros _; apply A0; intros r E; discriminate|discriminate|constructor; exact E2|].
        replace zs with (concat (map (fun x => [x]) zs)) by (clear; induction zs; cbn; congruence).
        apply (inst_ellipsis _ _ false _ _ b' 0 Nil); [constructor; [reflexivity|apply A0; intros r E; discriminate]|discriminate| |constructor].
        apply rep_S with (m := length zs); [exists ZZ; eexists; split; [cbn; auto|exact E3]| |apply map_length|].
        - intros s l I E. destruct I as [<-|[]]. rewrite E3 in E. injection E as <-. apply map_length.
        - intros i Hi. rewrite (nth_indep (map (fun x => [x]) zs) [] [Nil]) by (rewrite map_length; exact Hi).
          rewrite (map_nth (fun x => [x])). constructor. constructor. rewrite lookup_slice, E3. cbn [option_map].
          rewrite (nth_indep (map Leaf zs) (Node []) (Leaf Nil)) by (rewrite map_length; exact Hi). rewrite map_nth. reflexivity. }
      intros [|[|i]] Hi; [apply (R _ (Atom 2) [Atom 3; Atom 4]); reflexivity|apply (R _ (Atom 5) []); reflexivity|lia].
  - apply inst_pair; [intros _; apply A0; intros r E; discriminate|discriminate|constructor; reflexivity|].
    apply inst_pair; [intros _; apply A0; intros r E; discriminate|discriminate|constructor; reflexivity|constructor].
Qed.

(** ** What does not hold *)
(** A vector pattern that ends with an ellipsis, within a repeated pattern: the variable gets
    no entry for a vector without elements for it, and the results shift.
    (_ #(y z ...) ...) applied to #(1) #(2 3), template ((y z ...) ...), gives ((1 3)). *)
Let vpat := L [Sym US; Vec (L [Sym Y; Sym ZZ; dots]); dots].
Let vtmpl := L [L [Sym Y; Sym ZZ; dots]; dots].
Let vform := L [Sym 9%Z; Vec (L [Atom 1]); Vec (L [Atom 2; Atom 3])].
Theorem vector_in_ellipsis_refuted :
  exists crs, compile_rules is_dots is_us [] [(vpat, vtmpl)] = Ok crs /\
    (forall n, expand same ren (5 + n) crs vform = Ok (L [L [Atom 1; Atom 3]])) /\
    exists b, first_match (ellipsis is_dots []) (literal []) is_us same [(vpat, vtmpl)] vform vtmpl b /\
      b = [(Y, Node [Leaf (Atom 1); Leaf (Atom 2)]); (ZZ, Node [Node []; Node [Leaf (Atom 3)]])].
Proof.
  eexists. split; [reflexivity|]. split; [intros n; reflexivity|].
  eexists. split; [|reflexivity].
  apply fm_here. exists (Sym 9%Z), (L [Vec (L [Atom 1]); Vec (L [Atom 2; Atom 3])]). split; [reflexivity|].
  apply (matches_ell is_dots is_us []); [reflexivity|].
  exists [Vec (L [Atom 1]); Vec (L [Atom 2; Atom 3])], Nil,
    [[(Y, Leaf (Atom 1)); (ZZ, Node [])]; [(Y, Leaf (Atom 2)); (ZZ, Node [Leaf (Atom 3)])]], [].
  split; [reflexivity|]. split; [reflexivity|]. split; [|split; [split; reflexivity|reflexivity]].
  assert (H : forall y zs, matches (ellipsis is_dots []) (literal []) is_us same (L [Sym Y; Sym ZZ; dots]) (Pair y (L zs)) [(Y, Leaf y); (ZZ, Node (map Leaf zs))]).
  { intros y zs. apply (matches_pair is_dots is_us []); [intros e r E; injection E as <- <-; reflexivity|].
    exists y, (L zs), [(Y, Leaf y)], [(ZZ, Node (map Leaf zs))]. split; [reflexivity|]. split; [reflexivity|]. split; [|reflexivity].
    apply (matches_ell is_dots is_us []); [reflexivity|].
    exists zs, Nil, (map (fun z => [(ZZ, Leaf z)]) zs), []. split; [clear; induction zs; cbn; congruence|]. split; [reflexivity|].
    split; [clear; induction zs; constructor; auto; reflexivity|]. split; [split; reflexivity|].
    cbn. rewrite map_map. reflexivity. }
  constructor; [eexists; split; [reflexivity|apply (H (Atom 1) [])]|].
  constructor; [eexists; split; [reflexivity|apply (H (Atom 2) [Atom 3])]|constructor].
Qed.
(** The template (x ... ...) of the pattern (_ x ...) is accepted although its ellipses are
    nested deeper than the pattern's, and with an argument the expansion never ends: no bound
    on the number of turns is enough. *)
Lemma realize_pair rn fuel sz mv L I e rest : SynModel.realize rn fuel sz mv L I (CPair e rest) =
  (do r <- SynModel.realize rn fuel sz mv L I e;
   match r with
   | Unbound _ => Ok r
   | Val d =>
       do r2 <- SynModel.realize rn fuel sz mv L I rest;
       match r2 with
       | Unbound _ => Ok r2
       | Val d2 => Ok (Val (if is_ell e then dappend d d2 else Pair d d2))
       end
   end).
Proof. reflexivity. Qed.
Theorem deep_template_accepted_refuted :
  exists crs, compile_rules is_dots is_us [] [(L [Sym US; Sym X; dots], L [Sym X; dots; dots])] = Ok crs /\
    forall fuel, expand same ren fuel crs (L [Sym 9%Z; Atom 1]) = UB.
Proof.
  eexists. split; [reflexivity|]. intros fuel.
  cbn -[SynModel.realize]. unfold realize_template. cbn -[SynModel.realize].
  match goal with |- context [SynModel.realize _ fuel ?sz ?mv 0 ?I (CPair (CEll 1 ?v1 (CEll 2 ?v2 ?q 0) 0) CNil)] =>
    set (m := mv); set (i0 := I); set (w1 := v1); set (w2 := v2) end.
  assert (H : SynModel.realize ren fuel DEFAULT_MAX_LEVEL m 0 i0 (CEll 1 w1 (CEll 2 w2 (CRef 1 0) 0) 0) = UB).
  { rewrite realize_ell. cbn [Nat.leb DEFAULT_MAX_LEVEL]. destruct fuel as [|fuel]; [reflexivity|]. cbn [eloop]. rewrite realize_ell. cbn [Nat.leb DEFAULT_MAX_LEVEL].
    match goal with |- context [eloop ?b 2 ?s] => set (body := b); set (se := s) end.
    assert (K : forall n i acc, eloop body 2 se n i acc = UB).
    { induction n as [|n IH]; intros i acc; cbn [eloop]; [reflexivity|]. unfold body at 1. cbn -[eloop dappend]. apply IH. }
    rewrite K. reflexivity. }
  rewrite realize_pair. unfold m, i0, w1, w2 in *. rewrite H. reflexivity.
Qed.
(** Nine nested ellipses make the index array one element too short (the array has 10 elements
    and the initialization writes element 10). *)
Fixpoint nine (n : nat) (x : datum) : datum := match n with O => x | S n' => L [nine n' x; dots] end.
Theorem nine_ellipses_refuted :
  exists crs, compile_rules is_dots is_us [] [(Pair (Sym US) (nine 9 (Sym X)), Atom 0)] = Ok crs /\
    forall fuel, expand same ren fuel crs (L [Sym 9%Z]) = UB.
Proof. eexists. split; [reflexivity|]. intros fuel. reflexivity. Qed.
End Example_.

Print Assumptions syntax_rules_expand.
Print Assumptions syntax_rules_no_match.
Print Assumptions matches_unique.
Print Assumptions vector_in_ellipsis_refuted.
Print Assumptions deep_template_accepted_refuted.
Print Assumptions nine_ellipses_refuted.
