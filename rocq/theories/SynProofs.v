(** syntax-rules: the compiled pattern and what the matcher does to the match vector *)
From Coq Require Import ZArith List Bool Arith Lia.
From Verif Require Import Outcome SynModel SynSpec.
Import ListNotations.
Ltac Zify.zify_post_hook ::= idtac.

Lemma count_pairs d : count d = pairs d.
Proof. induction d; cbn; congruence. Qed.

Lemma assq_app s x y : assq s (x ++ y) = match assq s x with Some v => Some v | None => assq s y end.
Proof. induction x as [|[k v] x IH]; cbn; auto. destruct (Z.eqb s k); auto. Qed.
Lemma assq_none s x : assq s x = None <-> ~ In s (map fst x).
Proof.
  induction x as [|[k v] x IH]; cbn; [tauto|].
  destruct (Z.eqb_spec s k).
  - split; [discriminate|]. intros H. exfalso. auto.
  - rewrite IH. split; intros H; [intros [->|I]; auto|]. intros I. apply H. auto.
Qed.

Section Proofs.
Variable ell0 : Z -> bool.
Variable under : Z -> bool.
Variable lits : list Z.
Variable same : Z -> datum -> bool.
Notation ell := (SynModel.ell ell0 lits).
Notation is_lit := (SynModel.is_lit lits).
Notation svars := (SynSpec.svars ell is_lit under).
Notation matches := (SynSpec.matches ell is_lit under same).
Notation cpat := (SynModel.cpat ell0 under lits).
Notation mtch := (SynModel.mtch same).

(** ** What the compiler makes of a pattern *)
Inductive cpd : nat -> datum -> cp -> list (Z * pvref) -> Prop :=
| cpd_nil L : cpd L Nil CNil []
| cpd_atom L z : cpd L (Atom z) (CAtom z) []
| cpd_lit L s : ell s = false -> is_lit s = true -> cpd L (Sym s) (CSym s) []
| cpd_wild L s : ell s = false -> is_lit s = false -> under s = true -> cpd L (Sym s) CWild []
| cpd_var L s n : ell s = false -> is_lit s = false -> under s = false -> cpd L (Sym s) (CRef L n) [(s, (L, n))]
| cpd_vec L l q v : cpd L l q v -> cpd L (Vec l) (CVec q) v
| cpd_pair L a d qa qd va vd :
    (forall e r, d = Pair (Sym e) r -> ell e = false) ->
    cpd L a qa va -> cpd L d qd vd -> cpd L (Pair a d) (CPair qa qd) (va ++ vd)
| cpd_ell L a e q ca cq va vq :
    ell e = true -> cpd (S L) a ca va -> cpd L q cq vq -> has_ell cq = false ->
    cpd L (Pair a (Pair (Sym e) q)) (CPair (CEll (S L) (map snd va) ca (pairs q)) cq) (va ++ vq).

Lemma cpd_not_ell L p q v : cpd L p q v -> is_ell q = false.
Proof. destruct 1; reflexivity. Qed.
Lemma cpd_names L p q v : cpd L p q v -> map fst v = svars p.
Proof.
  induction 1; cbn [SynSpec.svars map]; rewrite ?map_app; auto.
  - rewrite H, H0. reflexivity.
  - rewrite H, H0, H1. reflexivity.
  - rewrite H, H0, H1. reflexivity.
  - congruence.
  - rewrite H. cbn. congruence.
Qed.
Lemma cpd_levels L p q v : cpd L p q v -> forall s l n, In (s, (l, n)) v -> L <= l.
Proof.
  induction 1; cbn [In]; intros s0 l0 n0 I; try contradiction; eauto.
  - destruct I as [I|[]]. injection I as <- <- <-. lia.
  - apply in_app_iff in I as [I|I]; eauto.
  - apply in_app_iff in I as [I|I]; [apply IHcpd1 in I; lia|eauto].
Qed.

(** what is added to the context *)
Definition extends (c c' : ctx) (v : list (Z * pvref)) : Prop :=
  pvars c' = rev v ++ pvars c /\ pvcnt c' = pvcnt c + length v /\ map (fun x => snd (snd x)) v = seq (pvcnt c) (length v) /\
  NoDup (map fst v) /\ forall s, In s (map fst v) -> assq s (pvars c) = None.
Lemma extends_nil c c' : pvars c' = pvars c -> pvcnt c' = pvcnt c -> extends c c' [].
Proof. intros A B. repeat split; cbn; auto. - lia. - constructor. - intros s []. Qed.
Lemma extends_app c c1 c2 v1 v2 : extends c c1 v1 -> extends c1 c2 v2 -> extends c c2 (v1 ++ v2).
Proof.
  intros (A1 & A2 & A3 & A4 & A5) (B1 & B2 & B3 & B4 & B5). repeat split.
  - rewrite B1, A1, rev_app_distr, app_assoc. reflexivity.
  - rewrite app_length. lia.
  - rewrite map_app, app_length, seq_app, <- A2. f_equal; assumption.
  - rewrite map_app. assert (D : forall s, In s (map fst v1) -> ~ In s (map fst v2)).
    { intros s I J. apply B5 in J. rewrite A1, assq_app in J.
      destruct (assq s (rev v1)) eqn:E; [discriminate|]. apply assq_none in E. apply E.
      rewrite map_rev, <- in_rev. exact I. }
    clear - A4 B4 D. induction (map fst v1) as [|x r IH]; cbn; auto.
    inversion A4; subst. constructor.
    + rewrite in_app_iff. intros [I|I]; [auto|]. apply (D x); cbn; auto.
    + apply IH; auto. intros s I. apply D. cbn. auto.
  - intros s. rewrite map_app, in_app_iff. intros [I|I]; [auto|].
    apply B5 in I. rewrite A1, assq_app in I. destruct (assq s (rev v1)); [discriminate|auto].
Qed.
Lemma extends_maxlev c c' c1 v : extends c1 c' v -> pvars c1 = pvars c -> pvcnt c1 = pvcnt c -> extends c c' v.
Proof. intros (A1 & A2 & A3 & A4 & A5) E1 E2. repeat split; try congruence. rewrite <- E1. auto. Qed.

Fixpoint size (d : datum) : nat :=
  match d with Pair a t => S (size a + size t) | Vec l => S (size l) | _ => 1 end.

Lemma cpat_cpd_size k : forall p top seen L c q va c',
  size p <= k -> cpat top seen L p c = Ok (q, va, c') ->
  exists v, cpd L p q v /\ va = map snd v /\ extends c c' v /\ (seen = true -> has_ell q = false).
Proof.
  induction k as [|k IH]; intros p top seen L c q va c' K H; [destruct p; cbn in K; lia|].
  assert (plain : forall a d, p = Pair a d -> (forall e r, d = Pair (Sym e) r -> ell e = false) ->
    (do x <- cpat true false L a c;
     let '(ca, va, c1) := x in
     do y <- cpat false seen L d c1;
     let '(cd, vd, c2) := y in
     Ok (CPair ca cd, va ++ vd, c2)) = Ok (q, va, c') ->
    exists v, cpd L p q v /\ va = map snd v /\ extends c c' v /\ (seen = true -> has_ell q = false)).
  { intros a d -> ne E. cbn [size] in K.
    destruct (cpat true false L a c) as [[[ca v1] c1]| | |] eqn:E1; cbn [bind] in E; try discriminate.
    destruct (cpat false seen L d c1) as [[[cd v2] c2]| | |] eqn:E2; cbn [bind] in E; try discriminate.
    injection E as <- <- <-.
    apply IH in E1; [|lia]. apply IH in E2; [|lia].
    destruct E1 as (w1 & C1 & -> & X1 & S1). destruct E2 as (w2 & C2 & -> & X2 & S2).
    exists (w1 ++ w2). rewrite map_app. split; [constructor; auto|]. split; auto. split; [eapply extends_app; eauto|].
    intros E. specialize (S2 E). apply cpd_not_ell in C1. destruct ca; try discriminate; exact S2. }
  destruct p as [|a d|s|z|l]; cbn [SynModel.cpat] in H.
  - injection H as <- <- <-. exists []. repeat split; try constructor; try reflexivity; try (cbn; lia); intros ? [].
  - destruct d as [|e d'| | |].
    1,3,4,5: apply (plain _ _ eq_refl); [intros; discriminate|exact H].
    destruct (top && ell_datum ell0 lits a); [discriminate|].
    destruct (ell_datum ell0 lits e) eqn:El.
    + destruct seen; [discriminate|].
      destruct e as [| |e| |]; try discriminate. cbn [size] in K.
      destruct (cpat true false (S L) a (deepen c (S L))) as [[[ca v1] c1]| | |] eqn:E1; cbn [bind] in H; try discriminate.
      destruct (cpat false true L d' c1) as [[[cd v2] c2]| | |] eqn:E2; cbn [bind] in H; try discriminate.
      injection H as <- <- <-.
      apply IH in E1; [|lia]. apply IH in E2; [|lia].
      destruct E1 as (w1 & C1 & -> & X1 & S1). destruct E2 as (w2 & C2 & -> & X2 & S2).
      exists (w1 ++ w2). rewrite map_app. split; [apply cpd_ell; auto|]. split; auto.
      split; [|discriminate]. eapply extends_app; [|exact X2]. eapply extends_maxlev; [exact X1|reflexivity|reflexivity].
    + apply (plain _ _ eq_refl); [|exact H]. intros e0 r E. injection E as -> ->. exact El.
  - destruct (ell s) eqn:E1; [discriminate|]. destruct (is_lit s) eqn:E2.
    + injection H as <- <- <-. exists []. repeat split; try constructor; auto; try (cbn; lia); intros ? [].
    + destruct (under s) eqn:E3.
      * injection H as <- <- <-. exists []. split; [econstructor; eauto|]. split; auto. split; auto. apply extends_nil; auto.
      * unfold add_pvar in H. destruct (MAX <? L); [discriminate|]. destruct (MAX <? pvcnt c); [discriminate|].
        destruct (assq s (pvars c)) eqn:E4; [discriminate|].
        injection H as <- <- <-. exists [(s, (L, pvcnt c))]. split; [constructor; auto|]. split; auto.
        split; auto. split; [reflexivity|]. split; [cbn; lia|]. split; [reflexivity|]. split.
        -- constructor; [intros []|constructor].
        -- intros s' [<-|[]]. exact E4.
  - injection H as <- <- <-. exists []. repeat split; try constructor; try reflexivity; try (cbn; lia); intros ? [].
  - destruct (cpat true false L l c) as [[[cl v1] c1]| | |] eqn:E1; cbn [bind] in H; try discriminate.
    injection H as <- <- <-. cbn [size] in K. apply IH in E1; [|lia].
    destruct E1 as (w1 & C1 & -> & X1 & S1). exists w1. split; [constructor; auto|]. auto.
Qed.
Lemma cpat_cpd p top seen L c q va c' :
  cpat top seen L p c = Ok (q, va, c') ->
  exists v, cpd L p q v /\ va = map snd v /\ extends c c' v.
Proof. intros H. eapply cpat_cpd_size in H; [|apply le_n]. destruct H as (v & A & B & C & _). eauto. Qed.

(** ** Trees *)
(** [t] gets the new last element [x] at depth [L] *)
Fixpoint add (L : nat) (t x : tree) : tree :=
  match L with
  | O => x
  | S L' =>
      match t with
      | Node ts => match L' with
                   | O => Node (ts ++ [x])
                   | S _ => Node (removelast ts ++ [add L' (last ts (Node [])) x])
                   end
      | Leaf _ => t
      end
  end.
(** the last lists can be followed to depth [L] *)
Fixpoint spine (L : nat) (t : tree) : Prop :=
  match L with
  | O => t = Node []
  | 1 => exists ts, t = Node ts
  | S L' => exists ts r, t = Node (ts ++ [r]) /\ spine L' r
  end.
Lemma spine_S L t : 1 <= L -> spine (S L) t <-> exists ts r, t = Node (ts ++ [r]) /\ spine L r.
Proof. destruct L; [lia|]. reflexivity. Qed.
Lemma last_snoc {A} (l : list A) x d : last (l ++ [x]) d = x.
Proof. apply last_last. Qed.
Lemma add_snoc L ts r x : 1 <= L -> add (S L) (Node (ts ++ [r])) x = Node (ts ++ [add L r x]).
Proof. intros. destruct L; [lia|]. cbn [add]. rewrite removelast_last, last_last. reflexivity. Qed.
Lemma spine_add L : forall t bs, spine L t -> spine (S L) (add L t (Node bs)).
Proof.
  induction L as [|L IH]; intros t bs H.
  - cbn. eauto.
  - destruct L.
    + destruct H as (ts & ->). cbn [add]. apply spine_S; [lia|]. exists ts, (Node bs). split; auto. cbn. eauto.
    + apply spine_S in H; [|lia]. destruct H as (ts & r & -> & H). rewrite add_snoc by lia.
      apply spine_S; [lia|]. eauto.
Qed.
Lemma spine_add' L : forall t x, 1 <= L -> spine L t -> spine L (add L t x).
Proof.
  induction L as [|L IH]; intros t x P H; [lia|].
  destruct L.
  - destruct H as (ts & ->). cbn. eauto.
  - apply spine_S in H; [|lia]. destruct H as (ts & r & -> & H). rewrite add_snoc by lia.
    apply spine_S; [lia|]. exists ts, (add (S L) r x). split; auto. apply IH; auto. lia.
Qed.
Lemma add_add L : forall t bs x, spine L t -> add (S L) (add L t (Node bs)) x = add L t (Node (bs ++ [x])).
Proof.
  induction L as [|L IH]; intros t bs x H; [reflexivity|].
  destruct L.
  - destruct H as (ts & ->). cbn [add]. rewrite removelast_last, last_last. reflexivity.
  - apply spine_S in H; [|lia]. destruct H as (ts & r & -> & H). rewrite !add_snoc by lia.
    rewrite IH by exact H. reflexivity.
Qed.
Lemma add_adds L t xs : forall bs, spine L t ->
  fold_left (add (S L)) xs (add L t (Node bs)) = add L t (Node (bs ++ xs)).
Proof.
  induction xs as [|x xs IH]; intros bs H; cbn [fold_left]; [rewrite app_nil_r; reflexivity|].
  rewrite add_add, IH by exact H. rewrite <- app_assoc. reflexivity.
Qed.

(** [grow] makes an empty list at the end, and the sprout is its place *)
Lemma removelast__eq {A} (l : list A) : removelast_ l = removelast l.
Proof. induction l as [|a [|b l] IH]; cbn; auto. f_equal. exact IH. Qed.
Lemma set_at_last ts x p (y : tree) : set_at (length ts :: p) x (Node (ts ++ [y])) = Node (ts ++ [set_at p x y]).
Proof.
  cbn [set_at]. rewrite firstn_app, Nat.sub_diag, firstn_all, skipn_app, skipn_all, Nat.sub_diag. cbn [firstn skipn].
  rewrite app_nil_r. reflexivity.
Qed.
Lemma grow_add L : forall ts, 1 <= L -> spine L (Node ts) ->
  exists ts' p, grow (S L) ts = (ts', p) /\ Node ts' = add L (Node ts) (Node []) /\
    forall x, set_at p x (Node ts') = add L (Node ts) x.
Proof.
  induction L as [|L IH]; intros ts P H; [lia|].
  destruct L.
  - exists (ts ++ [Node []]), [length ts]. split; [reflexivity|]. split; [reflexivity|].
    intros x. rewrite set_at_last. reflexivity.
  - apply spine_S in H; [|lia]. destruct H as (us & r & E & H). injection E as ->.
    assert (R : exists rs, r = Node rs).
    { destruct L; cbn in H; [exact H|]. destruct H as (? & ? & -> & _). eauto. }
    destruct R as (rs & ->). destruct (IH rs ltac:(lia) H) as (ts' & p & G & E1 & E2).
    exists (us ++ [Node ts']), (length us :: p).
    split; [|split].
    + change (grow (S (S (S L))) (us ++ [Node rs])) with
        (let t := match us ++ [Node rs] with [] => [Node []] | _ => us ++ [Node rs] end in
         match last t (Node []) with
         | Node ts => let (ts', p) := grow (S (S L)) ts in (removelast_ t ++ [Node ts'], (length t - 1)%nat :: p)
         | Leaf _ => (t, [])
         end).
      replace (match us ++ [Node rs] with [] => [Node []] | _ => us ++ [Node rs] end) with (us ++ [Node rs]) by (destruct us; reflexivity).
      cbv zeta. rewrite last_last, G, removelast__eq, removelast_last, app_length. cbn [length].
      replace (length us + 1 - 1) with (length us) by lia. reflexivity.
    + rewrite add_snoc by lia. rewrite E1. reflexivity.
    + intros x. rewrite set_at_last, add_snoc by lia. rewrite E2. reflexivity.
Qed.
Lemma grow_branch_add L v : spine L (root v) ->
  branch (grow_branch v (S L)) = branch v /\ root (grow_branch v (S L)) = add L (root v) (Node []) /\
  forall x, (if S L =? 1 then x else set_at (sprout (grow_branch v (S L))) x (root (grow_branch v (S L)))) = add L (root v) x.
Proof.
  intros H. unfold grow_branch. destruct L.
  - cbn in *. rewrite H. auto.
  - cbn [Nat.leb Nat.eqb].
    assert (R : exists rs, root v = Node rs).
    { destruct L; cbn in H; [exact H|]. destruct H as (? & ? & -> & _). eauto. }
    destruct R as (rs & E). rewrite E in *.
    destruct (grow_add (S L) rs ltac:(lia) H) as (ts' & p & G & E1 & E2). rewrite G. cbn [branch root sprout]. auto.
Qed.

(** ** Effects *)
Definition pre (L l : nat) (v : mvar) : Prop := l = L \/ (branch v = [] /\ spine L (root v)).
Definition eff (L l : nat) (t : tree) (v v' : mvar) : Prop :=
  if l =? L then
    exists d, t = Leaf d /\ (if L =? 0 then root v' = Leaf d else branch v' = d :: branch v /\ sprout v' = sprout v /\ root v' = root v)
  else branch v' = [] /\ root v' = add L (root v) t.
(** several matches at a level that is not 0 *)
Definition effs (L l : nat) (ts : list tree) (v v' : mvar) : Prop :=
  if l =? L then
    exists ds, ts = map Leaf ds /\ branch v' = rev ds ++ branch v /\ sprout v' = sprout v /\ root v' = root v
  else branch v' = [] /\ root v' = fold_left (add L) ts (root v).

Lemma fold_upd (f : nat -> nat -> mvar -> option mvar) vars : forall mv,
  NoDup (map snd vars) ->
  let mv' := fold_left (fun mv v => match f (fst v) (snd v) (mv (snd v)) with Some x => upd mv (snd v) x | None => mv end) vars mv in
  (forall n, ~ In n (map snd vars) -> mv' n = mv n) /\
  (forall l n, In (l, n) vars -> mv' n = match f l n (mv n) with Some x => x | None => mv n end).
Proof.
  induction vars as [|[l n] vars IH]; intros mv ND; cbn [fold_left map fst snd].
  - split; auto. intros ? ? [].
  - cbn [map snd] in ND. inversion ND; subst. set (mv1 := match f l n (mv n) with Some x => upd mv n x | None => mv end).
    destruct (IH mv1 H2) as [A B].
    assert (U : forall k, k <> n -> mv1 k = mv k).
    { intros k K. unfold mv1. destruct (f l n (mv n)); auto. unfold upd. destruct (Nat.eqb_spec k n); congruence. }
    split.
    + intros k K. cbn in K. rewrite A; [apply U|]; intuition.
    + intros l' n' [E|I].
      * injection E as <- <-. rewrite A by auto. unfold mv1. destruct (f l n (mv n)); auto. unfold upd. rewrite Nat.eqb_refl. auto.
      * assert (n' <> n) by (intros ->; apply H1; apply (in_map snd) in I; exact I).
        etransitivity; [apply (B l' n' I)|]. rewrite U by auto. reflexivity.
Qed.
Lemma enter_spec L vars mv : NoDup (map snd vars) ->
  (forall n, ~ In n (map snd vars) -> enter L vars mv n = mv n) /\
  (forall l n, In (l, n) vars -> enter L vars mv n = grow_branch (mv n) L).
Proof. intros ND. exact (fold_upd (fun _ _ v => Some (grow_branch v L)) vars mv ND). Qed.
Lemma exit_spec L vars mv : NoDup (map snd vars) ->
  (forall n, ~ In n (map snd vars) -> exit L vars mv n = mv n) /\
  (forall l n, In (l, n) vars -> exit L vars mv n = if l =? L then exit_var L (mv n) else mv n).
Proof.
  intros ND. destruct (fold_upd (fun l _ v => if l =? L then Some (exit_var L v) else None) vars mv ND) as [A B].
  unfold exit.
  assert (E : forall l mv, fold_left (fun mv v => if fst v =? L then upd mv (snd v) (exit_var L (mv (snd v))) else mv) l mv =
     fold_left (fun mv v => match (if fst v =? L then Some (exit_var L (mv (snd v))) else None) with Some x => upd mv (snd v) x | None => mv end) l mv).
  { induction l as [|x l IH]; intros m; cbn [fold_left]; auto. rewrite IH. destruct (fst x =? L); reflexivity. }
  rewrite E. split; auto. intros l n I. rewrite (B l n I). destruct (l =? L); auto.
Qed.
End Proofs.
