(** The optimizer keeps the language, and the loops without backtracking it introduces lose nothing. *)
From Coq Require Import List ZArith Bool Lia.
From Verif Require Import Utf8Model Utf8Spec Utf8Proofs StringProofs SearchProofs2 RegexModel RegexSpec RegexScope RegexVm RegexDec RegexAtom RegexComp RegexMain RegexExec.
Import ListNotations.
Local Open Scope nat_scope.
Ltac Zify.zify_post_hook ::= idtac.
Section Eqs.
Variable S : list cset.
Lemma opt_seq_nil rest : opt_seq S [] rest = []. Proof. reflexivity. Qed.
Lemma opt_seq_cons x l rest : opt_seq S (x :: l) rest = opt S MSeq x (if is_nil (opt_seq S l rest) then rest else opt_seq S l rest) ++ opt_seq S l rest.
Proof. reflexivity. Qed.
Definition first_item k m n (l : list re) rest :=
    match l with
    | [] => [Rep k m n []]
    | x :: l' => match opt S MList x rest with
                 | [x'] => match l' with [] => [Rep k m n [x']] | _ => if re_eqb x x' then [Rep k m n l] else [Rep k m n [x']] end
                 | _ => [Rep k m n l]
                 end
    end.
Lemma opt_seq_eq md l rest : opt S md (Seq l) rest = match md with MSeq => opt_seq S l rest | _ => [Seq (opt_seq S l rest)] end.
Proof. destruct md; reflexivity. Qed.
Lemma opt_alt_eq md l rest : md <> MList -> opt S md (Alt l) rest = [Alt (concat (map (fun x => opt S MOpt x rest) l))].
Proof. destruct md; congruence || reflexivity. Qed.
Lemma opt_grp_eq md g l rest : opt S md (Grp g l) rest = [Grp g (opt_seq S l rest)]. Proof. destruct md; reflexivity. Qed.
Lemma opt_cased_eq md l rest : opt S md (Cased l) rest = [Cased (opt_seq S l rest)]. Proof. destruct md; reflexivity. Qed.
Lemma opt_look_eq md b l rest : opt S md (Look b l) rest = [Look b (opt_seq S l rest)]. Proof. destruct md; reflexivity. Qed.
Lemma opt_rep_seq m n l rest : opt S MSeq (Rep Greedy m n l) rest =
  match opt_seq S l rest with [] => [] | b :: t => [Rep (match rest with [] => While | x :: _ => if is_distinct S b x then While else Greedy end) m n (b :: t)] end.
Proof. cbn [opt]. change (opt_seq_with _ l rest) with (opt_seq S l rest). destruct (opt_seq S l rest) as [|b t]; [reflexivity|]. destruct rest as [|x rest]; [reflexivity|]. destruct (is_distinct S b x); reflexivity. Qed.
Lemma opt_rep_list k m n l rest : opt S MList (Rep k m n l) rest = [Rep k m n (opt_seq S l rest)]. Proof. destruct k; reflexivity. Qed.
Lemma opt_rep_item md k m n l rest : (md = MOpt \/ (md = MSeq /\ k <> Greedy)) -> opt S md (Rep k m n l) rest = first_item k m n l rest.
Proof. intros [->|(-> & H)]; [destruct k; destruct l; reflexivity|]. destruct k; try congruence; destruct l; reflexivity. Qed.
Lemma first_item_rep k m n l rest : exists l', first_item k m n l rest = [Rep k m n l'].
Proof. unfold first_item. destruct l as [|y l]; [eauto|]. destruct (opt S MList y rest) as [|? [|? ?]]; eauto. destruct l; eauto. destruct (re_eqb _ _); eauto. Qed.
End Eqs.

Section Rel.
Variables (w : list Z) (Ss : list cset) (mu : bool).
Notation M := (mt w Ss mu).
Notation Ms := (mts w Ss mu).
Definition grel (G' G : list (nat * list re)) : Prop := forall g b', In (g, b') G' -> exists b, In (g, b) G /\ forall i j, Ms b' i j <-> Ms b i j.
Record rel (r : re) (L : list re) : Prop := {
  r_lang : forall i j, Ms L i j <-> M r i j;
  r_null : forallb nullable L = nullable r;
  r_wf : forall lp, wf Ss mu lp r = true -> wfs Ss mu lp L = true;
  r_nogrp : nogrp r = true -> forallb nogrp L = true;
  r_nest : forall gs, nest gs r = true -> forallb (nest gs) L = true;
  r_grp : grel (flat_map groups L) (groups r);
  r_atoms : incl (flat_map atoms L) (atoms r) }.
Record rels (l L : list re) : Prop := {
  s_lang : forall i j, Ms L i j <-> Ms l i j;
  s_null : forallb nullable L = forallb nullable l;
  s_wf : forall lp, wfs Ss mu lp l = true -> wfs Ss mu lp L = true;
  s_nogrp : forallb nogrp l = true -> forallb nogrp L = true;
  s_nest : forall gs, forallb (nest gs) l = true -> forallb (nest gs) L = true;
  s_grp : grel (flat_map groups L) (flat_map groups l);
  s_atoms : incl (flat_map atoms L) (flat_map atoms l);
  s_nil : l = [] -> L = [] }.
Lemma grel_refl G : grel G G. Proof. intros g b I. exists b. split; auto. tauto. Qed.
Lemma grel_app G1 G2 H1 H2 : grel G1 H1 -> grel G2 H2 -> grel (G1 ++ G2) (H1 ++ H2).
Proof. intros A B g b I. apply in_app_iff in I as [I|I]; [apply A in I|apply B in I]; destruct I as (b' & I & E); exists b'; split; auto; apply in_app_iff; auto. Qed.
Lemma wf_wfs lp r : wfs Ss mu lp [r] = wf Ss mu lp r.
Proof. cbn [wfs is_nil]. rewrite !andb_true_r. reflexivity. Qed.
Lemma rel_self r : rel r [r].
Proof.
  split.
  - intros; apply mts_one.
  - cbn. apply andb_true_r.
  - intros. rewrite wf_wfs. assumption.
  - cbn. rewrite andb_true_r. auto.
  - cbn. intros. rewrite andb_true_r. auto.
  - cbn. rewrite app_nil_r. apply grel_refl.
  - cbn. rewrite app_nil_r. apply incl_refl.
Qed.
Lemma rels_nil : rels [] [].
Proof. split; try tauto; try (cbn; auto; fail). - intros g b []. - apply incl_refl. Qed.
Lemma wfs_mono l : wfs Ss mu false l = true -> wfs Ss mu true l = true.
Proof.
  induction l as [|x l IH]; cbn [wfs]; auto. fold (wfs Ss mu). intros E. apply andb_true_iff in E as (E1 & E2). cbn [andb] in *. rewrite (IH E2). destruct (is_nil l); rewrite ?E1, ?(wf_mono _ _ _ E1); reflexivity.
Qed.
Lemma wfs_app lp X L : wfs Ss mu (lp && is_nil L) X = true -> wfs Ss mu lp L = true -> wfs Ss mu lp (X ++ L) = true.
Proof.
  induction X as [|x X IH]; cbn [app wfs]; auto. fold (wfs Ss mu). intros E1 E2. apply andb_true_iff in E1 as (E1 & E3). rewrite (IH E3 E2), andb_true_r.
  replace (lp && is_nil (X ++ L)) with (lp && is_nil L && is_nil X); auto. destruct X; cbn [app is_nil]; rewrite ?andb_true_r, ?andb_false_r; reflexivity.
Qed.
Lemma rels_cons x X l L : rel x X -> rels l L -> rels (x :: l) (X ++ L).
Proof.
  intros A B. split.
  - intros i j. rewrite mts_app, mts_cons. split; intros (h & P & Q); exists h; (split; [apply (r_lang _ _ A)|apply (s_lang _ _ B)]); auto.
  - rewrite forallb_app. cbn [forallb]. rewrite (r_null _ _ A), (s_null _ _ B). reflexivity.
  - intros lp E. cbn [wfs] in E. fold (wfs Ss mu) in E. apply andb_true_iff in E as (E1 & E2). apply wfs_app; [|apply (s_wf _ _ B), E2].
    destruct l as [|y l].
    + rewrite (s_nil _ _ B eq_refl). cbn [is_nil] in *. apply (r_wf _ _ A). exact E1.
    + cbn [is_nil] in E1. rewrite andb_false_r in E1. apply (r_wf _ _ A) in E1. destruct (lp && is_nil L); [apply wfs_mono|]; exact E1.
  - cbn [forallb]. intros E. apply andb_true_iff in E as (E1 & E2). rewrite forallb_app, (r_nogrp _ _ A E1), (s_nogrp _ _ B E2). reflexivity.
  - intros gs. cbn [forallb]. intros E. apply andb_true_iff in E as (E1 & E2). rewrite forallb_app, (r_nest _ _ A _ E1), (s_nest _ _ B _ E2). reflexivity.
  - rewrite flat_map_app. cbn [flat_map]. apply grel_app; [apply (r_grp _ _ A)|apply (s_grp _ _ B)].
  - rewrite flat_map_app. cbn [flat_map]. apply incl_app; [apply incl_appl, (r_atoms _ _ A)|apply incl_appr, (s_atoms _ _ B)].
  - discriminate.
Qed.
Lemma rel_seq l L : rels l L -> rel (Seq l) L.
Proof. intros B. split; try apply B. Qed.
Ltac one := cbn [forallb flat_map app]; rewrite ?andb_true_r, ?app_nil_r.
Lemma rel_seq1 l L : rels l L -> rel (Seq l) [Seq L].
Proof.
  intros B. split.
  - intros. rewrite mts_one, !mt_seq. apply B.
  - one. apply B.
  - intros lp. rewrite wf_wfs. apply B.
  - one. apply B.
  - intros gs. one. apply B.
  - one. apply B.
  - one. apply B.
Qed.
Lemma rel_cased l L : rels l L -> rel (Cased l) [Cased L].
Proof.
  intros B. split.
  - intros. rewrite mts_one, !mt_cased. apply B.
  - one. apply B.
  - intros lp. rewrite wf_wfs. apply B.
  - one. apply B.
  - intros gs. one. apply B.
  - one. apply B.
  - one. apply B.
Qed.
Lemma rel_grp g l L : rels l L -> rel (Grp g l) [Grp g L].
Proof.
  intros B. split.
  - intros. rewrite mts_one, !mt_grp. apply B.
  - one. apply B.
  - intros lp. rewrite wf_wfs. cbn [wf]. change (Nat.ltb g 256 && wfs Ss mu lp l = true -> Nat.ltb g 256 && wfs Ss mu lp L = true). intros E. apply andb_true_iff in E as (E1 & E2). rewrite E1. apply B. exact E2.
  - discriminate.
  - intros gs. one. cbn [nest]. intros E. apply andb_true_iff in E as (E1 & E2). rewrite E1. apply B. exact E2.
  - one. cbn [groups]. intros h b [I|I].
    + injection I as <- <-. exists l. split; [left; reflexivity|]. apply B.
    + apply (s_grp _ _ B) in I as (b' & I & E). exists b'. split; auto. right. exact I.
  - one. apply B.
Qed.
Lemma rel_look b l L : rels l L -> rel (Look b l) [Look b L].
Proof.
  intros B. split.
  - intros. rewrite mts_one, !mt_look. destruct b; setoid_rewrite (s_lang _ _ B); tauto.
  - reflexivity.
  - intros lp. rewrite wf_wfs. cbn [wf]. change (wfs Ss mu true l && forallb nogrp l = true -> wfs Ss mu true L && forallb nogrp L = true). intros E. apply andb_true_iff in E as (E1 & E2).
    rewrite (s_wf _ _ B _ E1), (s_nogrp _ _ B E2). reflexivity.
  - one. apply B.
  - reflexivity.
  - intros ? ? [].
  - one. apply B.
Qed.
Lemma iter_ext (R R' : nat -> nat -> Prop) : (forall i j, R i j <-> R' i j) -> forall q i j, iter R q i j <-> iter R' q i j.
Proof. intros E. induction q as [|q IH]; intros i j; cbn [iter]; [tauto|]. split; intros (h & A & B); exists h; (split; [apply E|apply IH]); auto. Qed.
Lemma forallb_wf_false l : forallb (wf Ss mu false) l = wfs Ss mu false l.
Proof. induction l as [|x l IH]; cbn [forallb wfs andb]; auto. fold (wfs Ss mu). rewrite IH. reflexivity. Qed.
Lemma rel_rep k k' m n l L : rels l L -> rel (Rep k m n l) [Rep k' m n L].
Proof.
  intros B. split.
  - intros i j. rewrite mts_one, !mt_rep. setoid_rewrite (iter_ext (Ms L) (Ms l) (s_lang _ _ B)). tauto.
  - one. cbn [nullable]. rewrite (s_null _ _ B). reflexivity.
  - intros lp. rewrite wf_wfs. cbn [wf]. intros E. apply andb_true_iff in E as (E1 & E2). rewrite (s_null _ _ B), E2, andb_true_r. rewrite forallb_wf_false in *. apply B. exact E1.
  - one. apply B.
  - intros gs. one. apply B.
  - one. apply B.
  - one. apply B.
Qed.
Lemma rel_rep_nil k m n l : rels l [] -> (match n with Some n' => m <= n' | None => True end) -> rel (Rep k m n l) [].
Proof.
  intros B Hn.
  assert (I : forall q i j, iter (Ms l) q i j <-> i = j).
  { induction q as [|q IH]; intros i j; cbn [iter]; [tauto|]. split.
    - intros (h & A & A'). apply (s_lang _ _ B) in A. cbn in A. apply IH in A'. congruence.
    - intros ->. exists j. split; [apply (s_lang _ _ B); reflexivity|apply IH; reflexivity]. }
  split; try reflexivity.
  - intros i j. rewrite mt_rep. cbn [mts]. split.
    + intros ->. exists m. split; [lia|]. split; [destruct n; auto|]. apply I. reflexivity.
    + intros (q & _ & _ & A). apply I in A. exact A.
  - cbn [nullable forallb]. rewrite <- (s_null _ _ B). cbn. rewrite orb_true_r. reflexivity.
  - intros ? ? [].
  - intros ? [].
Qed.
Lemma rel_alt l (f : re -> list re) : Forall (fun x => (exists x', f x = [x']) /\ rel x (f x)) l -> rel (Alt l) [Alt (concat (map f l))].
Proof.
  intros H. split.
  - intros i j. rewrite mts_one, !mt_alt. split.
    + intros (y & I & A). apply in_concat in I as (Y & I1 & I2). apply in_map_iff in I1 as (x & <- & I1). rewrite Forall_forall in H. destruct (H x I1) as ((x' & E) & R). rewrite E in *. destruct I2 as [<-|[]].
      exists x. split; auto. apply (r_lang _ _ R). apply mts_one. exact A.
    + intros (x & I & A). rewrite Forall_forall in H. destruct (H x I) as ((x' & E) & R). exists x'. split.
      * apply in_concat. exists (f x). split; [apply in_map, I|]. rewrite E. left. reflexivity.
      * apply (r_lang _ _ R) in A. rewrite E in A. apply mts_one. exact A.
  - one. cbn [nullable]. induction H as [|x l ((x' & E) & R) Hl IH]; [reflexivity|]. cbn [map concat existsb]. rewrite existsb_app, IH, <- (r_null _ _ R), E. cbn. rewrite orb_false_r, andb_true_r. reflexivity.
  - intros lp. rewrite wf_wfs. cbn [wf]. induction H as [|x l ((x' & E) & R) Hl IH]; [reflexivity|]. cbn [map concat forallb]. intros E'. apply andb_true_iff in E' as (E1 & E2). rewrite forallb_app, IH by assumption.
    apply (r_wf _ _ R) in E1. rewrite E in *. rewrite wf_wfs in E1. cbn. rewrite E1. reflexivity.
  - one. cbn [nogrp]. induction H as [|x l ((x' & E) & R) Hl IH]; [reflexivity|]. cbn [map concat forallb]. intros E'. apply andb_true_iff in E' as (E1 & E2). rewrite forallb_app, IH by assumption. rewrite (r_nogrp _ _ R E1). reflexivity.
  - intros gs. one. cbn [nest]. induction H as [|x l ((x' & E) & R) Hl IH]; [reflexivity|]. cbn [map concat forallb]. intros E'. apply andb_true_iff in E' as (E1 & E2). rewrite forallb_app, IH by assumption. rewrite (r_nest _ _ R _ E1). reflexivity.
  - one. cbn [groups]. induction H as [|x l ((x' & E) & R) Hl IH]; [intros ? ? []|]. cbn [map concat flat_map]. rewrite flat_map_app. apply grel_app; [apply R|exact IH].
  - one. cbn [atoms]. induction H as [|x l ((x' & E) & R) Hl IH]; [intros ? []|]. cbn [map concat flat_map]. rewrite flat_map_app. apply incl_app; [apply incl_appl, R|apply incl_appr, IH].
Qed.
(** The optimizer keeps everything but the kinds of the loops. *)
Definition OK (r : re) : Prop := forall bare md rest, src Ss bare r = true -> (md = MOpt -> bare = true) -> (md = MList -> not_alt r = true) ->
  rel r (opt Ss md r rest) /\ (md <> MSeq -> exists x, opt Ss md r rest = [x]).
Lemma opt_seq_rels l : Forall OK l -> forallb (src Ss false) l = true -> forall rest, rels l (opt_seq Ss l rest).
Proof.
  induction 1 as [|x l Hx Hl IH]; intros E rest; [rewrite opt_seq_nil; apply rels_nil|]. cbn [forallb] in E. apply andb_true_iff in E as (E1 & E2).
  rewrite opt_seq_cons. apply rels_cons; [|apply IH, E2]. apply (Hx false MSeq); auto; discriminate.
Qed.
Lemma opt_rel r : OK r.
Proof.
  assert (One : forall r, (forall md rest, opt Ss md r rest = [r]) -> OK r).
  { intros r0 E bare md rest _ _ _. rewrite E. split; [apply rel_self|eauto]. }
  induction r using re_ind'; try (apply One; intros [] ?; reflexivity).
  - intros bare md rest E _ _. cbn [src] in E. rewrite opt_seq_eq. pose proof (opt_seq_rels l H E rest) as R. destruct md; split; eauto using rel_seq, rel_seq1; congruence.
  - discriminate.
  - intros bare md rest E _ _. cbn [src] in E. rewrite opt_cased_eq. pose proof (opt_seq_rels l H E rest) as R. split; eauto using rel_cased.
  - intros bare md rest E _ N. destruct md; [| |specialize (N eq_refl); discriminate]; (rewrite opt_alt_eq by discriminate; split; [|eauto]; cbn [src] in E; apply rel_alt; rewrite Forall_forall in *; rewrite forallb_forall in E; intros x I;
      destruct (H x I true MOpt rest (E x I)) as (A & B); auto; try discriminate; split; auto; apply B; discriminate).
  - intros bare md rest E Hb _. cbn [src] in E. apply andb_true_iff in E as (E & _). apply andb_true_iff in E as (E & En). apply andb_true_iff in E as (Ek & El).
    pose proof (opt_seq_rels l H El rest) as R.
    assert (Item : Nat.eqb (length l) 1 && forallb not_alt l = true -> rel (Rep k m n l) (first_item Ss k m n l rest) /\ (exists x, first_item Ss k m n l rest = [x])).
    { intros E. apply andb_true_iff in E as (E1 & E2). apply Nat.eqb_eq in E1. destruct l as [|x [|? ?]]; try discriminate. cbn [first_item]. apply Forall_inv in H. cbn [forallb] in El, E2. rewrite andb_true_r in El, E2.
      destruct (H false MList rest El) as (A & B); try discriminate; auto. destruct (B ltac:(discriminate)) as (x' & E'). rewrite E' in *. split; [|eauto]. apply rel_rep.
      change [x'] with ([x'] ++ []). apply rels_cons; [exact A|apply rels_nil]. }
    assert (Ln : match n with Some n' => m <= n' | None => True end) by (destruct n; auto; apply Nat.leb_le; exact En).
    destruct md.
    + split; [|congruence]. destruct k; [|rewrite opt_rep_item by (right; split; congruence); apply Item; exact Ek|discriminate].
      rewrite opt_rep_seq. destruct (opt_seq Ss l rest) as [|b t]; [apply rel_rep_nil; assumption|]. apply rel_rep. exact R.
    + rewrite opt_rep_item by (left; reflexivity). destruct Item as (A & B); [|split; auto]. rewrite (Hb eq_refl) in Ek. destruct k; auto; discriminate.
    + rewrite opt_rep_list. split; [|eauto]. apply rel_rep. exact R.
  - intros bare md rest E _ _. cbn [src] in E. rewrite opt_grp_eq. pose proof (opt_seq_rels l H E rest) as R. split; eauto using rel_grp.
  - discriminate.
  - intros bare md rest E _ _. cbn [src] in E. rewrite opt_look_eq. pose proof (opt_seq_rels l H E rest) as R. split; eauto using rel_look.
Qed.
Lemma opt_seq_rel l rest : forallb (src Ss false) l = true -> rels l (opt_seq Ss l rest).
Proof. intros E. apply opt_seq_rels; auto. apply Forall_forall. intros; apply opt_rel. Qed.
End Rel.


(** What [flat] says about the optimizer's output. *)
Section Flat.
Variable S : list cset.
Definition FL (r : re) : Prop := forall rest, (opt S MSeq r rest = [] -> vanish r = true) /\ forall x, is_atom x = true -> opt S MSeq r rest = [x] -> flat r = [x].
Lemma vanish_flat r : vanish r = true -> flat r = [].
Proof.
  assert (X : forall l, Forall (fun r => vanish r = true -> flat r = []) l -> forallb vanish l = true -> flat_map flat l = []).
  { induction 1 as [|x l Hx Hl IH]; cbn [forallb flat_map]; auto. intros E. apply andb_true_iff in E as (E1 & E2). rewrite Hx, IH by assumption. reflexivity. }
  induction r using re_ind'; try discriminate.
  - cbn [vanish flat]. apply X. exact H.
  - intros E. cbn [flat]. rewrite E. reflexivity.
Qed.
Lemma flats_vanish l : forallb vanish l = true -> flat_map flat l = [].
Proof. induction l as [|x l IH]; cbn [forallb flat_map]; auto. intros E. apply andb_true_iff in E as (E1 & E2). rewrite (vanish_flat _ E1), IH by assumption. reflexivity. Qed.
Lemma flats l : Forall FL l -> forall rest, (opt_seq S l rest = [] -> forallb vanish l = true) /\ forall x, is_atom x = true -> opt_seq S l rest = [x] -> flat_map flat l = [x].
Proof.
  induction 1 as [|y l Hy Hl IH]; intros rest; [split; [reflexivity|discriminate]|]. rewrite opt_seq_cons. set (rest' := if is_nil _ then _ else _). destruct (Hy rest') as (A & B), (IH rest) as (A' & B'). cbn [forallb flat_map]. split.
  - intros E. apply app_eq_nil in E as (E1 & E2). rewrite A, A' by assumption. reflexivity.
  - intros x Ax E. destruct (opt S MSeq y rest') as [|u U] eqn:Eu.
    + cbn [app] in E. rewrite (vanish_flat y) by auto. cbn [app]. auto.
    + cbn [app] in E. injection E as -> E. apply app_eq_nil in E as (-> & E). rewrite (flats_vanish l) by auto. rewrite app_nil_r. auto.
Qed.
Lemma flat_ok r : FL r.
Proof.
  assert (One : forall r, (forall rest, opt S MSeq r rest = [r]) -> FL r).
  { intros r0 E rest. rewrite E. split; [discriminate|]. intros x Ax E'. injection E' as ->. destruct x; try discriminate; reflexivity. }
  induction r using re_ind'; try (apply One; intros; reflexivity).
  all: try (intros rest; cbn [opt]; split; [discriminate|]; intros x Ax E; injection E as <-; discriminate).
  - intros rest. rewrite opt_seq_eq. apply (flats l H).
  - intros rest. destruct k.
    + rewrite opt_rep_seq. split.
      * destruct (opt_seq S l rest) eqn:E; [|discriminate]. intros _. apply (flats l H rest). exact E.
      * intros x Ax. destruct (opt_seq S l rest); [discriminate|]. intros E. injection E as <-. discriminate.
    + rewrite opt_rep_item by (right; split; congruence). destruct (first_item_rep S Lazy m n l rest) as (l' & ->). split; [discriminate|]. intros x Ax E. injection E as <-. discriminate.
    + rewrite opt_rep_item by (right; split; congruence). destruct (first_item_rep S While m n l rest) as (l' & ->). split; [discriminate|]. intros x Ax E. injection E as <-. discriminate.
Qed.
Lemma opt_seq_flat l rest : (opt_seq S l rest = [] -> forallb vanish l = true) /\ forall x, is_atom x = true -> opt_seq S l rest = [x] -> flat_map flat l = [x].
Proof. apply flats. apply Forall_forall. intros; apply flat_ok. Qed.
End Flat.

Section Safe.
Variables (c : ctx) (w : list Z).
Notation Ss := (sets c).
Notation mu := (multi c).
Notation M := (mt w Ss mu).
Notation Ms := (mts w Ss mu).
(** the characters and classes of the whole expression *)
Variable At : list re.
Hypothesis HAt : forall k k', In (Comp k) At -> In (CSet k') At -> (forall ch, in_class Ss k ch -> ~ in_class Ss k' ch) \/ (forall ch, in_class Ss k' ch -> in_class Ss k ch).
Lemma disjoint_sound s t : disjoint s t = true -> forall ch, contains s ch = true -> contains t ch = true -> False.
Proof.
  unfold disjoint, contains. intros D ch A B. apply existsb_exists in A as ((lo & hi) & I & A), B as ((lo' & hi') & J & B). rewrite forallb_forall in D. specialize (D _ I). cbn beta iota in D. rewrite forallb_forall in D. specialize (D _ J). cbn beta iota in D.
  apply andb_true_iff in A as (A1 & A2), B as (B1 & B2). apply Z.leb_le in A1, A2, B1, B2. repeat (apply orb_true_iff in D as [D|D]); apply Z.ltb_lt in D; lia.
Qed.
Lemma disjoint_complete s t : (forall ch, contains s ch = true -> contains t ch = true -> False) -> disjoint s t = true.
Proof.
  intros H. unfold disjoint. apply forallb_forall. intros (lo & hi) I. apply forallb_forall. intros (lo' & hi') J.
  destruct ((hi <? lo') || (hi' <? lo) || (hi <? lo) || (hi' <? lo'))%Z eqn:E; auto. exfalso. repeat (apply orb_false_iff in E as (E & ?)). rewrite ?Z.ltb_ge in *.
  apply (H (Z.max lo lo')); unfold contains; apply existsb_exists; [exists (lo, hi)|exists (lo', hi')]; (split; [assumption|]); apply andb_true_iff; rewrite !Z.leb_le; lia.
Qed.
Lemma apart_sound x y A i ch j : apart Ss x y = true -> atomset c x = Some A -> at_ w i ch -> A ch -> M y i j -> False.
Proof.
  intros D EA At1 Ac. destruct x; cbn [atomset] in EA; try discriminate; injection EA as <-; destruct y; cbn [apart] in D; try discriminate; cbn [mt]; unfold in_class in *; rewrite <- ?contains_spec in *.
  - intros (B & _). rewrite (at_fun _ _ _ _ B At1) in D. subst. rewrite Z.eqb_refl in D. discriminate.
  - intros (d & B & B' & _). rewrite (at_fun _ _ _ _ B At1) in B'. subst. apply contains_spec in B'. rewrite B' in D. discriminate.
  - intros (d & B & B' & _). rewrite (at_fun _ _ _ _ B At1) in B'. subst. apply B', contains_spec. exact D.
  - intros (B & _). rewrite (at_fun _ _ _ _ B At1) in D. rewrite Ac in D. discriminate.
  - intros (d & B & B' & _). rewrite (at_fun _ _ _ _ B At1) in B'. apply contains_spec in B'. eapply disjoint_sound; eauto.
  - apply Nat.eqb_eq in D. subst. intros (d & B & B' & _). rewrite (at_fun _ _ _ _ B At1) in B'. apply B', contains_spec, Ac.
  - intros (B & _). rewrite (at_fun _ _ _ _ B At1) in D. contradiction.
  - apply Nat.eqb_eq in D. subst. intros (d & B & B' & _). rewrite (at_fun _ _ _ _ B At1) in B'. apply contains_spec in B'. contradiction.
Qed.
Lemma atom_distinct_sound x y A i ch j : atom_distinct Ss x y = true -> (forall k, x = Comp k \/ x = CSet k -> In x At) -> (forall k, y = Comp k \/ y = CSet k -> In y At) -> atomset c x = Some A -> at_ w i ch -> A ch -> M y i j -> False.
Proof.
  intros D IX IY EA A1 A2 My. destruct x; cbn [atom_distinct] in D; try discriminate; destruct y; try discriminate; try (refine (apart_sound _ _ _ _ _ _ _ EA A1 A2 My); cbn [apart]; rewrite ?negb_involutive in D; exact D).
  - cbn [atomset] in EA. injection EA as <-. destruct My as (d & B & B' & _). rewrite (at_fun _ _ _ _ B A1) in B'.
    destruct (HAt k0 k) as [H|H]; [apply (IY k0); auto|apply (IX k); auto| |].
    + rewrite disjoint_complete in D; [discriminate|]. intros e X Y. unfold in_class in H. setoid_rewrite <- contains_spec in H. eapply H; eauto.
    + apply B', H, A2.
  - cbn [atomset] in EA. injection EA as <-. destruct My as (d & B & B' & _). rewrite (at_fun _ _ _ _ B A1) in B'.
    destruct (HAt k k0) as [H|H]; [apply (IX k); auto|apply (IY k0); auto| |].
    + rewrite disjoint_complete in D; [discriminate|]. intros e X Y. unfold in_class in H. setoid_rewrite <- contains_spec in H. eapply H; eauto.
    + apply A2, H, B'.
Qed.
Lemma down_head y : forall i j, M y i j -> exists h, M (RegexModel.down y) i h.
Proof.
  induction y using re_ind'; intros i j A; try (exists j; exact A).
  - destruct A.
  - rewrite mt_cased in A. destruct l as [|x l]; [exists j; exact A|]. destruct A as (h & A & _). cbn [RegexModel.down]. apply Forall_inv in H. eauto.
  - rewrite mt_grp in A. destruct l as [|x l]; [exists j; exact A|]. destruct A as (h & A & _). cbn [RegexModel.down]. apply Forall_inv in H. eauto.
Qed.
Lemma down_atoms y : forall k, RegexModel.down y = Comp k \/ RegexModel.down y = CSet k -> In (RegexModel.down y) (atoms y).
Proof.
  induction y using re_ind'; cbn [RegexModel.down atoms]; try (intros ? [X|X]; discriminate); try (intros; left; reflexivity).
  - destruct l as [|x l]; [intros ? [X|X]; discriminate|]. apply Forall_inv in H. intros k' X. cbn [flat_map]. apply in_app_iff. left. eauto.
  - destruct l as [|x l]; [intros ? [X|X]; discriminate|]. apply Forall_inv in H. intros k' X. cbn [flat_map]. apply in_app_iff. left. eauto.
  - destruct l as [|x l]; [intros ? [X|X]; discriminate|]. apply Forall_inv in H. intros k' X. cbn [flat_map]. apply in_app_iff. left. eauto.
Qed.
Lemma distinct_sound x y A i ch j : is_distinct Ss x y = true -> (forall k, x = Comp k \/ x = CSet k -> In x At) -> incl (atoms y) At -> atomset c x = Some A -> at_ w i ch -> A ch -> M y i j -> False.
Proof.
  intros D IX IY EA A1 A2 My.
  assert (D2 : atom_distinct Ss x (RegexModel.down y) = true).
  { unfold is_distinct in D. destruct x; cbn [atomset] in EA; try discriminate; cbn [RegexModel.down] in D; auto. cbn [atom_distinct] in *. destruct y; cbn [RegexModel.down]; try discriminate; exact D. }
  destruct (down_head y i j My) as (h & Mh). eapply (atom_distinct_sound x (RegexModel.down y)); eauto. intros k' X. apply IY. eapply down_atoms; eauto.
Qed.
Lemma head_sound y b : head y = Some b -> forall i j, M y i j -> exists h, M b i h.
Proof.
  induction y using re_ind'; cbn [head]; try discriminate; intros E i j A; try (injection E as <-; eauto).
  - destruct l as [|x l]; [discriminate|]. destruct A as (h & A & _). apply Forall_inv in H. eauto.
  - destruct l as [|x l]; [discriminate|]. destruct A as (h & A & _). apply Forall_inv in H. eauto.
  - destruct l as [|x l]; [discriminate|]. destruct A as (h & A & _). apply Forall_inv in H. eauto.
Qed.
(** the continuation of an expression whose last loop may be made a loop without backtracking *)
Definition cont (T : list re) (rest : list re) (W : nat -> Prop) : Prop :=
  forall x A, In x T -> match rest with [] => True | y :: _ => is_distinct Ss x y = true end -> atomset c x = Some A -> goodW w A W.
Definition SF (r : re) : Prop := forall bare md rest W, src Ss bare r = true -> (md = MOpt -> bare = true) -> (md = MList -> not_alt r = true) -> incl (atoms r) At ->
  cont (trail r) rest W -> safes c w (opt Ss md r rest) W.
Lemma trails_cons x l : trails (x :: l) = if forallb vanish l then trail x ++ trails l else trails l. Proof. reflexivity. Qed.
Lemma trail_atoms r : forall k x, x = Comp k \/ x = CSet k -> In x (trail r) -> In x (atoms r).
Proof.
  assert (FA : forall l, Forall (fun r => incl (flat_map atoms (flat r)) (atoms r)) l -> incl (flat_map atoms (flat_map flat l)) (flat_map atoms l)).
  { induction 1 as [|y l Hy Hl IH]; cbn [flat_map]; [apply incl_refl|]. rewrite flat_map_app. apply incl_app; [apply incl_appl, Hy|apply incl_appr, IH]. }
  assert (F : forall r, incl (flat_map atoms (flat r)) (atoms r)).
  { clear r. induction r using re_ind'; cbn [flat]; try (destruct (vanish _); [intros ? []|]; cbn [flat_map]; rewrite app_nil_r; apply incl_refl). cbn [atoms]. apply FA. exact H. }
  assert (X : forall l, Forall (fun r => forall k x, x = Comp k \/ x = CSet k -> In x (trail r) -> In x (atoms r)) l -> forall k x, x = Comp k \/ x = CSet k -> In x (trails l) -> In x (flat_map atoms l)).
  { induction 1 as [|y l Hy Hl IH]; intros k x Hx I; [destruct I|]. rewrite trails_cons in I. cbn [flat_map]. apply in_app_iff. destruct (forallb vanish l); [apply in_app_iff in I as [I|I]|]; eauto. }
  induction r using re_ind'; intros k0 x Hx I; try destruct I.
  - eapply X; eauto.
  - eapply X; eauto.
  - cbn [trail atoms] in *. apply in_flat_map in I as (y & I1 & I2). rewrite Forall_forall in H. apply in_flat_map. exists y. split; eauto.
  - cbn [trail] in I. apply in_app_iff in I as [I|I]; [|eapply X; eauto].
    destruct n; [destruct I|]. destruct (flat_map flat l) as [|y [|? ?]] eqn:Ef; try destruct I. destruct (is_atom y) eqn:Ay; [|destruct I]. destruct I as [<-|[]].
    cbn [atoms]. apply FA; [apply Forall_forall; intros; apply F|]. rewrite Ef. cbn [flat_map]. rewrite app_nil_r. destruct Hx as [->| ->]; left; reflexivity.
  - eapply X; eauto.
Qed.
Lemma trails_atoms l k x : x = Comp k \/ x = CSet k -> In x (trails l) -> In x (flat_map atoms l).
Proof. intros Hx I. apply (trail_atoms (Seq l) k x Hx). exact I. Qed.
Lemma cont_incl T T' rest W : incl T' T -> cont T rest W -> cont T' rest W.
Proof. intros I H x A J. apply H. apply I, J. Qed.
Lemma seq_safe l : Forall SF l -> forallb (src Ss false) l = true -> incl (flat_map atoms l) At -> forall rest W, cont (trails l) rest W -> safes c w (opt_seq Ss l rest) W.
Proof.
  induction 1 as [|y l Hy Hl IH]; intros E IA rest W HC; [exact Logic.I|]. cbn [forallb] in E. apply andb_true_iff in E as (E1 & E2). cbn [flat_map] in IA. apply incl_app_inv in IA as (IA1 & IA2).
  rewrite trails_cons in HC. rewrite opt_seq_cons. apply safes_app. split.
  - apply (Hy false MSeq); auto; try discriminate. pose proof (opt_seq_rel w Ss mu l rest E2) as R. destruct (opt_seq Ss l rest) as [|z T] eqn:ET.
    + cbn [is_nil]. destruct (opt_seq_flat Ss l rest) as (V & _). rewrite (V ET) in HC. intros x A I D EA. eapply goodW_ext; [|eapply (HC x A); eauto; apply in_app_iff; auto].
      intros i. unfold wps. cbn [mts]. split; [eauto|intros (? & -> & ?); auto].
    + cbn [is_nil]. intros x A I D EA i ch A1 A2 (j & (h & B & _) & _). exfalso. eapply (distinct_sound x z); eauto.
      * intros k Hx. apply IA1. eapply trail_atoms; eauto.
      * eapply incl_tran; [|exact IA2]. eapply incl_tran; [|apply (s_atoms _ _ _ _ _ R)]. cbn [flat_map]. apply incl_appl, incl_refl.
  - apply IH; auto. eapply cont_incl; [|exact HC]. destruct (forallb vanish l); [apply incl_appr|]; apply incl_refl.
Qed.
(** the body of a loop *)
Lemma loop_cont n l L rest W lo hi : (forall i j, Ms L i j <-> Ms l i j) ->
  (negb (twice n) || is_nil (trails l) || match l with b :: _ => match head b with Some b => forallb (fun x => apart Ss x b) (trails l) | None => false end | [] => true end) = true ->
  cont (trails l) rest W -> hi_ok lo hi n -> cont (trails l) rest (wpr c w L lo hi W).
Proof.
  intros EL E HC Hh x A I D EA i ch A1 A2 (q & j & Q1 & Q2 & It & Wj). pose proof (HC x A I D EA) as Gd.
  destruct (twice n) eqn:Tn.
  - cbn [negb orb] in E. destruct (trails l) as [|t T] eqn:Et; [destruct I|]. cbn [is_nil orb] in E. rewrite <- Et in *. clear Et t T. destruct q as [|q].
    + cbn [iter] in It. subst j. exists 0, (S i). repeat split; auto. eapply Gd; eauto.
    + exfalso. destruct It as (h & B & _). apply EL in B. destruct l as [|b l]; [destruct I|]. destruct (head b) as [b0|] eqn:Hb; [|discriminate]. rewrite forallb_forall in E. specialize (E x I).
      destruct B as (h2 & B & _). destruct (head_sound b b0 Hb i h2 B) as (h3 & B'). eapply apart_sound; eauto.
  - destruct n as [n'|]; [|discriminate]. cbn [twice] in Tn. apply Nat.ltb_ge in Tn. destruct hi as [h|]; [|destruct Hh]. cbn [hi_ok le_opt] in *. replace q with 0 in It by lia. cbn [iter] in It. subst j.
    exists 0, (S i). cbn [le_opt]. repeat split; auto; try lia. eapply Gd; eauto.
Qed.
Lemma opt_safe r : SF r.
Proof.
  induction r using re_ind'; try (intros bare md rest W _ _ _ _ _; destruct md; cbn; auto; fail); try discriminate.
  - intros bare md rest W E _ _ IA HC. cbn [src] in E. rewrite opt_seq_eq. pose proof (seq_safe l H E IA rest W HC). destruct md; [assumption| |]; (split; [|exact Logic.I]; eapply safes_ext; [|eassumption]; intros i; unfold wps; cbn [mts]; split; [eauto|intros (? & -> & ?); auto]).
  - intros bare md rest W E _ _ IA HC. cbn [src] in E. rewrite opt_cased_eq. pose proof (seq_safe l H E IA rest W HC). split; [|exact Logic.I]; eapply safes_ext; [|eassumption]; intros i; unfold wps; cbn [mts]; split; [eauto|intros (? & -> & ?); auto].
  - intros bare md rest W E _ N IA HC. rewrite opt_alt_eq by (intros ->; specialize (N eq_refl); discriminate). split; [|exact Logic.I]. apply safe_ext with (W := W); [intros i; unfold wps; cbn [mts]; split; [eauto|intros (? & -> & ?); auto]|].
    cbn [src] in E. cbn [trail] in HC. cbn [atoms] in IA. cbn [safe]. clear N. induction H as [|x l Hx Hl IH]; [exact Logic.I|]. cbn [forallb] in E. apply andb_true_iff in E as (E1 & E2). cbn [flat_map] in IA, HC. apply incl_app_inv in IA as (IA1 & IA2).
    cbn [map concat]. destruct (proj2 (opt_rel w Ss mu x true MOpt rest E1 ltac:(auto) ltac:(discriminate)) ltac:(discriminate)) as (x' & Ex). 
    pose proof (Hx true MOpt rest W E1 ltac:(auto) ltac:(discriminate) IA1 (cont_incl _ _ _ _ (incl_appl _ (incl_refl _)) HC)) as Sx. rewrite Ex in *. cbn [app]. split.
    + destruct Sx as (Sx & _). eapply safe_ext; [|exact Sx]. intros i; unfold wps; cbn [mts]; split; [intros (? & -> & ?); auto|eauto].
    + apply IH; auto. eapply cont_incl; [|exact HC]. apply incl_appr, incl_refl.
  - intros bare md rest W E Hb _ IA HC. cbn [src] in E. apply andb_true_iff in E as (E & Elp). apply andb_true_iff in E as (E & En). apply andb_true_iff in E as (Ek & El). cbn [atoms] in IA. cbn [trail] in HC.
    change (cont (match n, flat_map flat l with None, [x] => if is_atom x then [x] else [] | _, _ => [] end ++ trails l) rest W) in HC.
    assert (Kw : k <> While) by (intros ->; discriminate).
    assert (HT : cont (trails l) rest W) by (eapply cont_incl; [|exact HC]; apply incl_appr, incl_refl).
    assert (Wrap : forall k' L, safe c w (Rep k' m n L) W -> safes c w [Rep k' m n L] W).
    { intros k' L Sx. split; [|exact Logic.I]. eapply safe_ext; [|exact Sx]. intros i; unfold wps; cbn [mts]; split; [eauto|intros (? & -> & ?); auto]. }
    assert (Gen : forall k' L, k' <> While -> (forall lo hi, hi_ok lo hi n -> safes c w L (wpr c w L lo hi W)) -> safes c w [Rep k' m n L] W).
    { intros k' L Kw' HL. apply Wrap. cbn [safe]. destruct k'; try congruence; exact HL. }
    assert (Body : forall lo hi, hi_ok lo hi n -> safes c w (opt_seq Ss l rest) (wpr c w (opt_seq Ss l rest) lo hi W)).
    { intros lo hi Hh. apply seq_safe; auto. eapply loop_cont; eauto. apply (s_lang _ _ _ _ _ (opt_seq_rel w Ss mu l rest El)). }
    assert (Item : Nat.eqb (length l) 1 && forallb not_alt l = true -> safes c w (first_item Ss k m n l rest) W).
    { intros E. apply andb_true_iff in E as (E1 & E2). apply Nat.eqb_eq in E1. destruct l as [|x [|? ?]]; try discriminate. cbn [first_item]. apply Forall_inv in H. cbn [forallb] in El, E2. rewrite andb_true_r in El, E2.
      destruct (opt_rel w Ss mu x false MList rest El) as (R & B); try discriminate; auto. destruct (B ltac:(discriminate)) as (x' & E'). rewrite E' in *. apply Gen; auto. intros lo hi Hh.
      cbn [flat_map] in IA. rewrite app_nil_r in IA.
      rewrite <- E'. apply (H false MList); auto; try discriminate. assert (ET : trails [x] = trail x) by (cbn; apply app_nil_r). rewrite <- ET. eapply loop_cont; eauto.
      rewrite E'. intros i j. rewrite (r_lang _ _ _ _ _ R), mts_one. tauto. }
    destruct md.
    + destruct k; [|rewrite opt_rep_item by (right; split; congruence); apply Item; exact Ek|discriminate].
      rewrite opt_rep_seq. destruct (opt_seq Ss l rest) as [|b t] eqn:Eo; [exact Logic.I|].
      set (k' := match rest with [] => While | x :: _ => if is_distinct Ss b x then While else Greedy end). apply Wrap.
      cbn [safe]. destruct k' eqn:Ek'; try exact Body. destruct n as [n'|]; [exact Body|]. destruct t; [|exact Body]. destruct (atomset c b) as [A|] eqn:EA; [|exact Body].
      assert (Ab : is_atom b = true) by (destruct b; try discriminate; reflexivity).
      apply (HC b A); auto.
      * apply in_app_iff. left. rewrite (proj2 (opt_seq_flat Ss l rest) b Ab Eo), Ab. left. reflexivity.
      * unfold k' in Ek'. destruct rest; auto. destruct (is_distinct Ss b r); auto; discriminate.
    + rewrite opt_rep_item by (left; reflexivity). apply Item. rewrite (Hb eq_refl) in Ek. destruct k; auto; discriminate.
    + rewrite opt_rep_list. apply Gen; auto.
  - intros bare md rest W E _ _ IA HC. cbn [src] in E. rewrite opt_grp_eq. pose proof (seq_safe l H E IA rest W HC). split; [|exact Logic.I]; eapply safes_ext; [|eassumption]; intros i; unfold wps; cbn [mts]; split; [eauto|intros (? & -> & ?); auto].
  - intros bare md rest W E _ _ IA HC. cbn [src] in E. rewrite opt_look_eq. split; [|exact Logic.I]. cbn [safe]. change (safes c w (opt_seq Ss l rest) (fun _ => True)). apply seq_safe; auto. intros x A _ _ _ i ch _ _ _. exact Logic.I.
Qed.
Lemma opt_seq_safe l (W : nat -> Prop) : forallb (src Ss false) l = true -> incl (flat_map atoms l) At -> (forall x, W x) -> safes c w (opt_seq Ss l []) W.
Proof. intros E IA HW. apply seq_safe; auto. { apply Forall_forall. intros; apply opt_safe. } intros x A _ _ _ i ch _ _ _. apply HW. Qed.
End Safe.
