From Coq Require Import List ZArith Bool Lia QArith SpecFloat Relations PeanoNat.
From Verif Require Import EqualModel EqualSpec.
Import ListNotations.
Local Open Scope Z_scope.

(** ** atoms *)
Lemma obj_eqb_eq x y : obj_eqb x y = true <-> x = y.
Proof.
  destruct x, y; cbn; try (split; congruence); [rewrite Z.eqb_eq|rewrite Z.eqb_eq|rewrite Nat.eqb_eq]; split; congruence.
Qed.
Lemma obj_eqb_refl x : obj_eqb x x = true. Proof. now apply obj_eqb_eq. Qed.
Lemma obj_eqb_neq x y : obj_eqb x y = false <-> x <> y.
Proof. rewrite <- obj_eqb_eq. destruct (obj_eqb x y); split; congruence. Qed.
Lemma zlist_eqb_eq a : forall b, zlist_eqb a b = true <-> a = b.
Proof.
  induction a as [|x a IH]; intros [|y b]; cbn; try (split; congruence). rewrite andb_true_iff, Z.eqb_eq, IH. split; [intros []; congruence|intros H; injection H; auto].
Qed.
Lemma flist_eqb_eq a : forall b, flist_eqb a b = true <-> Forall2 (fun f g => SFeqb f g = true) a b.
Proof.
  induction a as [|x a IH]; intros [|y b]; cbn.
  - split; constructor.
  - split; [discriminate|inversion 1].
  - split; [discriminate|inversion 1].
  - rewrite andb_true_iff, IH. split; [intros []; now constructor|inversion 1; auto].
Qed.
Ltac sf_no := split; [discriminate|intros [H [E|(u & v & E1 & E2)]]; [first [discriminate E|exfalso; apply H; reflexivity|injection E as -> ->; lia|injection E as ->; lia]|first [discriminate E1|discriminate E2]]].
Ltac sf_yes := split; [intros _; split; [discriminate|first [left; reflexivity|right; eauto]]|reflexivity].
Lemma sf_eqb f g : SFeqb f g = true <-> f <> S754_nan /\ (f = g \/ (exists s t, f = S754_zero s /\ g = S754_zero t)).
Proof.
  unfold SFeqb. destruct f as [s|s| |s m e], g as [t|t| |t n e']; try destruct s; try destruct t; cbn; try sf_no; try sf_yes.
  - destruct (Z.compare_spec e e') as [->|L|L]; cbn; try sf_no. change (Pos.compare_cont Eq m n) with (Pos.compare m n).
    destruct (Pos.compare_spec m n) as [->|L|L]; cbn; [sf_yes|sf_no|sf_no].
  - destruct (Z.compare_spec e e') as [->|L|L]; cbn; try sf_no. change (Pos.compare_cont Eq m n) with (Pos.compare m n).
    destruct (Pos.compare_spec m n) as [->|L|L]; cbn; [sf_yes|sf_no|sf_no].
Qed.
Lemma sf_sym f g : SFeqb f g = true -> SFeqb g f = true.
Proof.
  rewrite !sf_eqb. intros [N [->|(s & t & -> & ->)]]; [auto|]. split; [discriminate|right; eauto].
Qed.
Lemma sf_trans f g k : SFeqb f g = true -> SFeqb g k = true -> SFeqb f k = true.
Proof.
  rewrite !sf_eqb. intros [N [E1|(s & t & E1 & E2)]] [M [E3|(s' & t' & E3 & E4)]]; subst; (split; [assumption||discriminate|]); [now left|right; eauto|right; eauto|right; eauto].
Qed.
Lemma num_eqv_spec a b : num_eqv a b = true <-> same_number a b.
Proof.
  destruct a as [z|n d|f|r i], b as [z'|n' d'|g|r' i']; cbn [num_eqv exact_val];
    try (split; [discriminate|inversion 1; subst; cbn in *; discriminate]).
  1-4: rewrite Qeq_bool_iff; (split; [intros H; econstructor; [reflexivity|reflexivity|exact H]|inversion 1; subst; cbn in *; congruence]).
  - rewrite andb_true_iff, sf_eqb, Bool.eqb_true_iff. split.
    + intros [[N [->|(s & t & -> & ->)]] E]; [now constructor|]. cbn in E. subst. now constructor.
    + inversion 1; subst; cbn in *; [discriminate|]. auto.
  - rewrite andb_true_iff. split; [intros []; now constructor|inversion 1; subst; cbn in *; [discriminate|auto]].
Qed.
Lemma same_number_sym a b : same_number a b -> same_number b a.
Proof. inversion 1; subst; [econstructor; eauto; now symmetry|now constructor|constructor; now apply sf_sym]. Qed.
Lemma same_number_trans a b c : same_number a b -> same_number b c -> same_number a c.
Proof.
  intros H1 H2. inversion H1; subst; inversion H2; subst; cbn in *; try discriminate; try assumption.
  - assert (q = p0) by congruence. subst. econstructor; eauto. now transitivity p0.
  - constructor; eapply sf_trans; eassumption.
Qed.
Section Atoms.
Context (h : heap) (IO : idents_ok h).
Lemma same_atom_sym x y : same_atom h x y -> same_atom h y x.
Proof.
  inversion 1; subst.
  - constructor.
  - eapply sa_num; eauto. now apply same_number_sym.
  - eapply sa_str; eauto.
  - eapply sa_ident; eauto.
  - now apply sa_ident_r.
  - now apply sa_ident_l.
  - eapply sa_uint; eauto.
  - eapply sa_uflo; eauto. clear - H2. induction H2; constructor; auto using sf_sym.
Qed.
Lemma num_ref a n : num_of h (ORef a) = Some n -> h a = NNum n.
Proof. cbn. destruct (h a); congruence. Qed.
Ltac idents := repeat (match goal with
  | Q : num_of h (ORef _) = Some _ |- _ => apply num_ref in Q
  | Q : h ?a = NIdent ?s |- _ => lazymatch goal with H : exists n, h s = NSym n |- _ => fail | _ => pose proof (IO _ _ Q) end
  end); repeat (match goal with H : exists n, h _ = NSym n |- _ => destruct H end);
  repeat (match goal with H : h ?a = ?u, H' : h ?a = ?v |- _ => rewrite H in H'; first [discriminate H'|injection H' as H'; subst|clear H'] end).
Lemma same_atom_trans x y z : same_atom h x y -> same_atom h y z -> same_atom h x z.
Proof.
  intros H1 H2. inversion H1; subst; inversion H2; subst; try (constructor; fail); try assumption; idents.
  all: try (now constructor).
  - eapply sa_num; eauto. eapply same_number_trans; [eassumption|]. assert (b = a0) by congruence. now subst.
  - eapply sa_str; eauto.
  - eapply sa_ident; eauto.
  - eapply sa_ident; eauto.
  - eapply sa_uint; eauto.
  - eapply sa_uflo; eauto.
    match goal with A : Forall2 _ ?l ?m, B : Forall2 _ ?m ?n |- Forall2 _ ?l ?n => clear - A B; revert n B; induction A; intros n B; inversion B; subst; constructor; eauto using sf_trans end.
Qed.
Definition agg (x : obj) : bool := match pair_of h x, vec_of h x with None, None => false | _, _ => true end.
Lemma same_atom_agg x y : same_atom h x y -> agg x = true -> x = y.
Proof.
  unfold agg, pair_of, vec_of. intros H A. inversion H; subst; auto.
  - destruct x as [w|w|a0]; try discriminate. apply num_ref in H0. rewrite H0 in A. discriminate.
  - rewrite H0 in A. discriminate.
  - rewrite H0 in A. discriminate.
  - rewrite H0 in A. discriminate.
  - destruct (IO _ _ H0) as (nm & E). rewrite E in A. discriminate.
  - rewrite H0 in A. discriminate.
  - rewrite H0 in A. discriminate.
Qed.
Lemma same_atom_agg_r x y : same_atom h x y -> agg y = true -> x = y.
Proof. intros H A. symmetry. apply same_atom_agg; [now apply same_atom_sym|assumption]. Qed.
Lemma eqvp_same x y : eqvp h x y = true -> same_atom h x y.
Proof.
  unfold eqvp. destruct (num_of h x) as [a|] eqn:EX.
  - destruct (num_of h y) as [b|] eqn:EY; [|discriminate]. intros H. apply num_eqv_spec in H. eapply sa_num; eauto.
  - intros H. apply obj_eqb_eq in H. subst. constructor.
Qed.
Lemma leaf_spec x y : agg x = false -> equal_leaf h x y = true <-> same_atom h x y.
Proof.
  intros A. unfold equal_leaf. destruct (obj_eqb x y) eqn:E0; [apply obj_eqb_eq in E0; subst; split; [constructor|reflexivity]|].
  split.
  - destruct (num_of h x) as [a|] eqn:EX.
    + destruct (num_of h y) as [b|] eqn:EY; [|discriminate]. apply eqvp_same.
    + destruct x as [w|z|a]; [|discriminate|].
      * destruct (ident_p h y) eqn:IY; [|congruence].
        destruct y as [|  |b]; try discriminate. cbn in IY |- *. destruct (h b) eqn:EB; discriminate.
      * destruct (match h a with NStr _ _ => true | _ => false end) eqn:ES.
        -- destruct (h a) eqn:EA; try discriminate. destruct y as [| |b]; try discriminate. destruct (h b) eqn:EB; try discriminate.
           rewrite andb_true_iff, Bool.eqb_true_iff, zlist_eqb_eq. intros [-> ->]. eapply sa_str; eauto.
        -- intros H. assert (H' : (if ident_p h (ORef a) || ident_p h y then obj_eqb (unwrap h (ORef a)) (unwrap h y) else match y with
             | ORef b => match h a, h b with NUInt t l, NUInt t' l' => Nat.eqb t t' && zlist_eqb l l' | NUFlo t l, NUFlo t' l' => Nat.eqb t t' && flist_eqb l l' | _, _ => false end
             | _ => false end) = true) by (destruct (h a); try discriminate ES; exact H). clear H ES.
           destruct (ident_p h (ORef a) || ident_p h y) eqn:EI.
           ++ apply obj_eqb_eq in H'. cbn [unwrap ident_p] in H', EI. destruct y as [| |b]; cbn [unwrap ident_p] in H', EI.
              ** destruct (h a); discriminate.
              ** destruct (h a); discriminate.
              ** destruct (h a) eqn:EA, (h b) eqn:EB; cbn in EI; try discriminate; injection H' as ->; try (now apply sa_ident_l); try (now apply sa_ident_r). eapply sa_ident; eauto.
           ++ destruct y as [| |b]; try discriminate. destruct (h a) eqn:EA; try discriminate; destruct (h b) eqn:EB; try discriminate;
                apply andb_true_iff in H' as [T L]; apply Nat.eqb_eq in T; subst.
              ** apply zlist_eqb_eq in L. subst. eapply sa_uint; eauto.
              ** apply flist_eqb_eq in L. eapply sa_uflo; eauto.
  - intros H. inversion H; subst.
    + now rewrite obj_eqb_refl in E0.
    + rewrite H0, H1. unfold eqvp. rewrite H0, H1. now apply num_eqv_spec.
    + cbn [num_of]. rewrite H0, H1, eqb_reflx. cbn. now apply zlist_eqb_eq.
    + cbn [num_of ident_p unwrap]. rewrite H0, H1. cbn. apply Nat.eqb_refl.
    + destruct (IO _ _ H0) as (nm & Es). cbn [num_of ident_p unwrap]. rewrite H0, Es. cbn. apply Nat.eqb_refl.
    + destruct (IO _ _ H0) as (nm & Es). cbn [num_of ident_p unwrap]. rewrite H0, Es. cbn. apply Nat.eqb_refl.
    + cbn [num_of ident_p unwrap]. rewrite H0, H1. cbn. rewrite Nat.eqb_refl. now apply zlist_eqb_eq.
    + cbn [num_of ident_p unwrap]. rewrite H0, H1. cbn. rewrite Nat.eqb_refl. now apply flist_eqb_eq.
Qed.
End Atoms.
(** ** data *)
Lemma Forall2_length {A B} (P : A -> B -> Prop) l m : Forall2 P l m -> length l = length m.
Proof. induction 1; cbn; auto. Qed.
Lemma Forall2_impl {A B} (P Q : A -> B -> Prop) l m : (forall a b, P a b -> Q a b) -> Forall2 P l m -> Forall2 Q l m.
Proof. intros H. induction 1; constructor; auto. Qed.
Section Data.
Context (h : heap) (IO : idents_ok h).
Lemma step_rel_mono (P Q : obj -> obj -> Prop) x y : (forall a b, P a b -> Q a b) -> step_rel h P x y -> step_rel h Q x y.
Proof.
  intros M S. inversion S; subst; [now constructor|eapply sr_pair; eauto|eapply sr_vec; eauto]. eapply Forall2_impl; [|eassumption]. auto.
Qed.
Lemma same_unfold x y : same_datum h x y <-> step_rel h (same_datum h) x y.
Proof.
  split.
  - intros (P & B & p). eapply step_rel_mono; [|apply B; exact p]. intros a b q. exists P. auto.
  - intros S. exists (step_rel h (same_datum h)). split; [|exact S]. intros a b. apply step_rel_mono.
    intros c d (P & B & p). eapply step_rel_mono; [|apply B; exact p]. intros e f q. exists P. auto.
Qed.
Lemma same_refl x : same_datum h x x.
Proof. apply same_unfold. constructor. constructor. Qed.
Lemma Forall2_flip {A B} (P : A -> B -> Prop) l m : Forall2 P l m -> Forall2 (fun a b => P b a) m l.
Proof. induction 1; constructor; auto. Qed.
Lemma same_sym x y : same_datum h x y -> same_datum h y x.
Proof.
  intros (P & B & p). exists (fun a b => P b a). split; [|exact p]. intros a b q. apply B in q. inversion q; subst.
  - constructor. now apply same_atom_sym.
  - eapply sr_pair; eauto.
  - eapply sr_vec; eauto. now apply Forall2_flip.
Qed.
Lemma Forall2_comp {A} (P Q : A -> A -> Prop) l m n : Forall2 P l m -> Forall2 Q m n -> Forall2 (fun a c => exists b, P a b /\ Q b c) l n.
Proof. intros H. revert n. induction H; intros n K; inversion K; subst; constructor; eauto. Qed.
Lemma agg_pair a p q : h a = NPair p q -> agg h (ORef a) = true. Proof. intros E. unfold agg, pair_of. now rewrite E. Qed.
Lemma agg_vec a l : h a = NVec l -> agg h (ORef a) = true. Proof. intros E. unfold agg, pair_of, vec_of. now rewrite E. Qed.
Lemma same_trans x y z : same_datum h x y -> same_datum h y z -> same_datum h x z.
Proof.
  intros H1 H2. exists (fun a c => exists b, same_datum h a b /\ same_datum h b c). split; [|eauto]. clear x y z H1 H2.
  intros a c (b & H1 & H2). pose proof (proj1 (same_unfold _ _) H1) as S1. pose proof (proj1 (same_unfold _ _) H2) as S2.
  inversion S1 as [? ? A1|a1 b1 p q p' q' E1 E2 P1 Q1|a1 b1 l l' E1 E2 F1]; subst; inversion S2 as [? ? A2|a2 b2 p2 q2 p2' q2' E3 E4 P2 Q2|a2 b2 l2 l2' E3 E4 F2]; subst.
  - constructor. eapply same_atom_trans; eassumption.
  - apply (same_atom_agg_r h IO) in A1; [|eapply agg_pair; eassumption]. subst. eapply sr_pair; eauto using same_refl.
  - apply (same_atom_agg_r h IO) in A1; [|eapply agg_vec; eassumption]. subst. eapply sr_vec; eauto. eapply Forall2_impl; [|exact F2]. eauto using same_refl.
  - apply (same_atom_agg h IO) in A2; [|eapply agg_pair; eassumption]. subst. eapply sr_pair; eauto using same_refl.
  - rewrite E2 in E3. injection E3 as <- <-. eapply sr_pair; eauto.
  - congruence.
  - apply (same_atom_agg h IO) in A2; [|eapply agg_vec; eassumption]. subst. eapply sr_vec; eauto. eapply Forall2_impl; [|exact F1]. eauto using same_refl.
  - congruence.
  - rewrite E2 in E3. injection E3 as <-. eapply sr_vec; eauto. eapply Forall2_comp; eassumption.
Qed.
Lemma pair_ref x p q : pair_of h x = Some (p, q) -> exists a, x = ORef a /\ h a = NPair p q.
Proof. destruct x as [| |a]; cbn; try discriminate. destruct (h a) eqn:E; try discriminate. intros H. injection H as <- <-. eauto. Qed.
Lemma vec_ref x l : vec_of h x = Some l -> exists a, x = ORef a /\ h a = NVec l.
Proof. destruct x as [| |a]; cbn; try discriminate. destruct (h a) eqn:E; try discriminate. intros H. injection H as <-. eauto. Qed.
Lemma agg_cases x : agg h x = false <-> pair_of h x = None /\ vec_of h x = None.
Proof. unfold agg. destruct (pair_of h x), (vec_of h x); split; try discriminate; try (intros []; discriminate); auto. Qed.
Lemma same_leaf x y : agg h x = false -> same_datum h x y <-> same_atom h x y.
Proof.
  intros A. rewrite same_unfold. split; [|now constructor]. intros S. inversion S; subst; auto.
  - erewrite agg_pair in A by eassumption. discriminate.
  - erewrite agg_vec in A by eassumption. discriminate.
Qed.
Lemma same_pair x y p q p' q' : pair_of h x = Some (p, q) -> pair_of h y = Some (p', q') -> same_datum h x y <-> same_datum h p p' /\ same_datum h q q'.
Proof.
  intros X Y. apply pair_ref in X as (a & -> & EA). apply pair_ref in Y as (b & -> & EB). rewrite same_unfold. split.
  - intros S. inversion S as [? ? A|? ? ? ? ? ? E1 E2 ? ?|? ? ? ? E1 E2 ?]; subst.
    + apply (same_atom_agg h IO) in A; [|eapply agg_pair; eassumption]. injection A as ->. rewrite EA in EB. injection EB as -> ->. split; apply same_refl.
    + rewrite EA in E1. rewrite EB in E2. injection E1 as -> ->. injection E2 as -> ->. auto.
    + congruence.
  - intros []. eapply sr_pair; eauto.
Qed.
Lemma Forall2_refl {A} (P : A -> A -> Prop) l : (forall x, P x x) -> Forall2 P l l.
Proof. intros. induction l; constructor; auto. Qed.
Lemma same_vec x y l l' : vec_of h x = Some l -> vec_of h y = Some l' -> same_datum h x y <-> Forall2 (same_datum h) l l'.
Proof.
  intros X Y. apply vec_ref in X as (a & -> & EA). apply vec_ref in Y as (b & -> & EB). rewrite same_unfold. split.
  - intros S. inversion S as [? ? A|? ? ? ? ? ? E1 E2 ? ?|? ? ? ? E1 E2 ?]; subst.
    + apply (same_atom_agg h IO) in A; [|eapply agg_vec; eassumption]. injection A as ->. rewrite EA in EB. injection EB as ->. apply Forall2_refl, same_refl.
    + congruence.
    + rewrite EA in E1. rewrite EB in E2. injection E1 as ->. injection E2 as ->. auto.
  - intros. eapply sr_vec; eauto.
Qed.
Lemma same_pair_only x y p q : pair_of h x = Some (p, q) -> same_datum h x y -> exists p' q', pair_of h y = Some (p', q').
Proof.
  intros X. pose proof X as X0. apply pair_ref in X as (a & -> & EA). rewrite same_unfold. intros S. inversion S as [? ? A|? ? ? ? ? ? E1 E2 ? ?|? ? ? ? E1 E2 ?]; subst.
  - apply (same_atom_agg h IO) in A; [|eapply agg_pair; eassumption]. subst. eauto.
  - exists p', q'. cbn. now rewrite E2.
  - congruence.
Qed.
Lemma same_vec_only x y l : vec_of h x = Some l -> same_datum h x y -> exists l', vec_of h y = Some l' /\ length l' = length l.
Proof.
  intros X. pose proof X as X0. apply vec_ref in X as (a & -> & EA). rewrite same_unfold. intros S. inversion S as [? ? A|? ? ? ? ? ? E1 E2 ? ?|? ? ? ? E1 E2 F]; subst.
  - apply (same_atom_agg h IO) in A; [|eapply agg_vec; eassumption]. subst. eauto.
  - congruence.
  - exists l'. split; [cbn; now rewrite E2|]. apply Forall2_length in F. congruence.
Qed.

(** ** the C part *)
Definition means (a : answer) (x y : obj) : Prop :=
  match a with Yes => same_datum h x y | No => ~ same_datum h x y | Fall x' y' => same_datum h x' y' <-> same_datum h x y end.
Lemma check_spec a b fx fy : match check_aggregate h a b fx fy with
  | Go => same_datum h a b | Stop Yes => False | Stop No => ~ same_datum h a b | Stop (Fall x y) => x = fx /\ y = fy end.
Proof.
  unfold check_aggregate. destruct (pair_of h a) as [[p q]|] eqn:PA.
  - destruct (pair_of h b) eqn:PB; [auto|]. intros S. destruct (same_pair_only _ _ _ _ PA S) as (? & ? & ?). congruence.
  - destruct (vec_of h a) as [l|] eqn:VA.
    + destruct (vec_of h b) eqn:VB; [auto|]. intros S. destruct (same_vec_only _ _ _ VA S) as (? & ? & ?). congruence.
    + assert (A : agg h a = false) by now apply agg_cases. pose proof (leaf_spec h IO a b A) as L. pose proof (same_leaf a b A) as L2.
      destruct (equal_leaf h a b); [apply L2, L; reflexivity|]. intros S. apply L2, L in S. discriminate.
Qed.
Lemma vec_loop_spec xs : forall ys x y, length ys = length xs ->
  match vec_loop h xs ys x y with Yes => Forall2 (same_datum h) xs ys | No => ~ Forall2 (same_datum h) xs ys | Fall x' y' => x' = x /\ y' = y end.
Proof.
  induction xs as [|a xs IH]; intros [|b ys] x y L; try discriminate; cbn [vec_loop]; [constructor|].
  pose proof (check_spec a b x y) as C. destruct (check_aggregate h a b x y) as [|[| |x' y']]; [|contradiction| |assumption].
  - specialize (IH ys x y ltac:(now injection L)). destruct (vec_loop h xs ys x y); auto. intros F. inversion F; auto.
  - intros F. inversion F; auto.
Qed.
Lemma nonpair_spec x y : pair_of h x = None \/ pair_of h y = None -> means (c_nonpair h x y) x y.
Proof.
  intros N. unfold c_nonpair. destruct (pair_of h x) as [[p q]|] eqn:PX.
  - cbn [means]. intros S. destruct (same_pair_only _ _ _ _ PX S) as (? & ? & ?). destruct N; congruence.
  - destruct (vec_of h x) as [l|] eqn:VX.
    + destruct (obj_eqb x y) eqn:E; [apply obj_eqb_eq in E; subst; apply same_refl|].
      destruct (vec_of h y) as [l'|] eqn:VY.
      * destruct (Nat.eqb_spec (length l') (length l)) as [L|L].
        -- pose proof (vec_loop_spec l l' x y L) as V. pose proof (same_vec _ _ _ _ VX VY) as SV. destruct (vec_loop h l l' x y); cbn [means].
           ++ now apply SV.
           ++ intros S. now apply V, SV.
           ++ destruct V as [-> ->]. reflexivity.
        -- cbn [means]. intros S. destruct (same_vec_only _ _ _ VX S) as (? & ? & ?). congruence.
      * cbn [means]. intros S. destruct (same_vec_only _ _ _ VX S) as (? & ? & ?). congruence.
    + assert (A : agg h x = false) by now apply agg_cases. pose proof (leaf_spec h IO x y A) as L. pose proof (same_leaf x y A) as L2.
      destruct (equal_leaf h x y); cbn [means]; [apply L2, L; reflexivity|]. intros S. apply L2, L in S. discriminate.
Qed.
(** x is some cdrs after z *)
Inductive after : nat -> obj -> obj -> Prop :=
| af_0 x : after 0 x x
| af_S n z x p q : after n z x -> pair_of h x = Some (p, q) -> after (S n) z q.
Lemma after_front n z x : after (S n) z x -> exists p q, pair_of h z = Some (p, q) /\ after n q x.
Proof.
  revert x. induction n as [|n IH]; intros x H; inversion H as [|? ? w p q A P]; subst.
  - inversion A; subst. exists p, x. split; [assumption|constructor].
  - destruct (IH _ A) as (p' & q' & E & A'). exists p', q'. split; [assumption|]. econstructor; eassumption.
Qed.
(** The answer of the loop is right as long as it does not come from hare and tortoise both meeting. *)
Definition circ_exit (x y xs ys : obj) (xc yc : bool) : bool :=
  (obj_eqb xs x && yc) || (obj_eqb ys y && (xc || obj_eqb xs x)).
Lemma spine_no fuel : forall x y xs ys xc yc a, c_spine h fuel x y xs ys xc yc = Some a ->
  (a = Yes \/ means a x y).
Proof.
  induction fuel as [|f IH]; intros x y xs ys xc yc a; cbn [c_spine]; [discriminate|].
  destruct (pair_of h x) as [[p q]|] eqn:PX.
  2: { intros E. injection E as <-. right. apply nonpair_spec. auto. }
  destruct (pair_of h y) as [[p' q']|] eqn:PY.
  2: { intros E. injection E as <-. right. apply nonpair_spec. auto. }
  pose proof (same_pair _ _ _ _ _ _ PX PY) as SP. pose proof (check_spec p p' x y) as C.
  destruct (check_aggregate h p p' x y) as [|[| |x' y']]; [| |intros E; injection E as <-; right; cbn [means]; intros S; apply SP in S; tauto|intros E; injection E as <-; right; cbn [means]; destruct C as [-> ->]; reflexivity]; [|contradiction].
  destruct (pair_of h q) as [[p2 q2]|] eqn:PX2.
  2: { intros E. injection E as <-. pose proof (nonpair_spec q q' (or_introl PX2)) as N. right. destruct (c_nonpair h q q'); cbn [means] in *; tauto. }
  destruct (pair_of h q') as [[p2' q2']|] eqn:PY2.
  2: { intros E. injection E as <-. pose proof (nonpair_spec q q' (or_intror PY2)) as N. right. destruct (c_nonpair h q q'); cbn [means] in *; tauto. }
  pose proof (same_pair _ _ _ _ _ _ PX2 PY2) as SP2. pose proof (check_spec p2 p2' q q') as C2.
  destruct (check_aggregate h p2 p2' q q') as [|[| |x' y']]; [|contradiction|intros E; injection E as <-; right; cbn [means]; intros S; tauto|intros E; injection E as <-; right; cbn [means]; destruct C2 as [-> ->]; tauto].
  destruct (obj_eqb xs q && yc); [intros E; injection E as <-; now left|]. cbv zeta.
  destruct (obj_eqb ys q' && (xc || obj_eqb xs q)); [intros E; injection E as <-; now left|].
  destruct (pair_of h q2) as [[p3 q3]|] eqn:PX3.
  2: { intros E. injection E as <-. pose proof (nonpair_spec q2 q2' (or_introl PX3)) as N. right. destruct (c_nonpair h q2 q2'); cbn [means] in *; tauto. }
  destruct (pair_of h q2') as [[p3' q3']|] eqn:PY3.
  2: { intros E. injection E as <-. pose proof (nonpair_spec q2 q2' (or_intror PY3)) as N. right. destruct (c_nonpair h q2 q2'); cbn [means] in *; tauto. }
  destruct (pair_of h xs) as [[? xs']|]; [|discriminate]. destruct (pair_of h ys) as [[? ys']|]; [|discriminate].
  intros E. destruct (IH _ _ _ _ _ _ _ E) as [->|M]; [now left|right]. destruct a; cbn [means] in *; tauto.
Qed.
Section Acyclic.
Context (rank : nat -> nat) (RK : forall a b, child h a b -> (rank b < rank a)%nat).
Definition rk (x : obj) : nat := match x with ORef a => S (rank a) | _ => O end.
Lemma rk_cdr x p q : pair_of h x = Some (p, q) -> (rk q < rk x)%nat /\ (rk p < rk x)%nat.
Proof.
  intros E. apply pair_ref in E as (a & -> & E). split; [destruct q as [| |b]|destruct p as [| |b]]; cbn; try lia.
  - assert (rank b < rank a)%nat; [|lia]. apply RK. eapply ch_cdr; eauto.
  - assert (rank b < rank a)%nat; [|lia]. apply RK. eapply ch_car; eauto.
Qed.
Lemma rk_vec x l y : vec_of h x = Some l -> In y l -> (rk y < rk x)%nat.
Proof.
  intros E I. apply vec_ref in E as (a & -> & E). destruct y as [| |b]; cbn; try lia.
  assert (rank b < rank a)%nat; [|lia]. apply RK. eapply ch_vec; eauto.
Qed.
Lemma after_rk n z x : after n z x -> (rk x <= rk z)%nat /\ (n <> O -> (rk x < rk z)%nat).
Proof. induction 1 as [|n z x p q A [I1 I2] P]; [split; [lia|congruence]|]. apply rk_cdr in P. lia. Qed.
Lemma nonpair_rk x y : match c_nonpair h x y with Fall x' _ => (rk x' <= rk x)%nat | _ => True end.
Proof.
  unfold c_nonpair. destruct (pair_of h x); [exact Logic.I|]. destruct (vec_of h x) as [l|]; [|destruct (equal_leaf h x y); exact Logic.I].
  destruct (obj_eqb x y); [exact Logic.I|]. destruct (vec_of h y) as [l'|]; [|exact Logic.I]. destruct (Nat.eqb_spec (length l') (length l)) as [L|]; [|exact Logic.I].
  pose proof (vec_loop_spec l l' x y L) as V. destruct (vec_loop h l l' x y); try exact Logic.I. destruct V as [-> _]. lia.
Qed.
Ltac rks := repeat (match goal with Q : pair_of h _ = Some (_, _) |- _ => apply rk_cdr in Q end).
Lemma spine_acyclic fuel : forall x y xs ys n m xc yc, after n xs x -> after m ys y -> (rk x < fuel)%nat ->
  exists a, c_spine h fuel x y xs ys xc yc = Some a /\ means a x y /\ match a with Fall x' _ => (rk x' <= rk x)%nat | _ => True end.
Proof.
  induction fuel as [|f IH]; intros x y xs ys n m xc yc AX AY L; [lia|]. cbn [c_spine].
  destruct (pair_of h x) as [[p q]|] eqn:PX.
  2: { eexists. split; [reflexivity|]. split; [apply nonpair_spec; auto|apply nonpair_rk]. }
  destruct (pair_of h y) as [[p' q']|] eqn:PY.
  2: { eexists. split; [reflexivity|]. split; [apply nonpair_spec; auto|apply nonpair_rk]. }
  pose proof (same_pair _ _ _ _ _ _ PX PY) as SP. pose proof (check_spec p p' x y) as C.
  destruct (check_aggregate h p p' x y) as [|[| |x' y']]; [|contradiction|eexists; split; [reflexivity|]; split; [|exact Logic.I]; cbn [means]; intros S; apply SP in S; tauto|eexists; split; [reflexivity|]; cbn [means]; destruct C as [-> ->]; split; [reflexivity|lia]].
  destruct (pair_of h q) as [[p2 q2]|] eqn:PX2.
  2: { eexists; split; [reflexivity|]. pose proof (nonpair_spec q q' (or_introl PX2)) as N. pose proof (nonpair_rk q q') as NR. split; [destruct (c_nonpair h q q'); cbn [means] in *; tauto|destruct (c_nonpair h q q'); try exact Logic.I; rks; lia]. }
  destruct (pair_of h q') as [[p2' q2']|] eqn:PY2.
  2: { eexists; split; [reflexivity|]. pose proof (nonpair_spec q q' (or_intror PY2)) as N. pose proof (nonpair_rk q q') as NR. split; [destruct (c_nonpair h q q'); cbn [means] in *; tauto|destruct (c_nonpair h q q'); try exact Logic.I; rks; lia]. }
  pose proof (same_pair _ _ _ _ _ _ PX2 PY2) as SP2. pose proof (check_spec p2 p2' q q') as C2.
  destruct (check_aggregate h p2 p2' q q') as [|[| |x' y']]; [|contradiction|eexists; split; [reflexivity|]; split; [|exact Logic.I]; cbn [means]; intros S; tauto|eexists; split; [reflexivity|]; cbn [means]; destruct C2 as [-> ->]; split; [tauto|rks; lia]].
  assert (AX1 : after (S n) xs q) by (econstructor; eassumption). assert (AY1 : after (S m) ys q') by (econstructor; eassumption).
  assert (NX : obj_eqb xs q = false) by (apply obj_eqb_neq; intros ->; apply after_rk in AX1; destruct AX1 as [_ A]; specialize (A ltac:(discriminate)); lia).
  assert (NY : obj_eqb ys q' = false) by (apply obj_eqb_neq; intros ->; apply after_rk in AY1; destruct AY1 as [_ A]; specialize (A ltac:(discriminate)); lia).
  rewrite NX, NY. cbn [andb]. cbv zeta.
  destruct (pair_of h q2) as [[p3 q3]|] eqn:PX3.
  2: { eexists; split; [reflexivity|]. pose proof (nonpair_spec q2 q2' (or_introl PX3)) as N. pose proof (nonpair_rk q2 q2') as NR. split; [destruct (c_nonpair h q2 q2'); cbn [means] in *; tauto|destruct (c_nonpair h q2 q2'); try exact Logic.I; rks; lia]. }
  destruct (pair_of h q2') as [[p3' q3']|] eqn:PY3.
  2: { eexists; split; [reflexivity|]. pose proof (nonpair_spec q2 q2' (or_intror PY3)) as N. pose proof (nonpair_rk q2 q2') as NR. split; [destruct (c_nonpair h q2 q2'); cbn [means] in *; tauto|destruct (c_nonpair h q2 q2'); try exact Logic.I; rks; lia]. }
  destruct (after_front _ _ _ AX1) as (px & xs' & PXS & AX'). destruct (after_front _ _ _ AY1) as (py & ys' & PYS & AY'). rewrite PXS, PYS.
  destruct (IH q2 q2' xs' ys' (S n) (S m) (xc || false) (yc || false)) as (a & E & M & RA).
  - econstructor; eassumption.
  - econstructor; eassumption.
  - pose proof (rk_cdr _ _ _ PX). pose proof (rk_cdr _ _ _ PX2). lia.
  - exists a. split; [exact E|]. split; [destruct a; cbn [means] in *; tauto|]. destruct a; try exact Logic.I. rks. lia.
Qed.
End Acyclic.
End Data.
