(** %interleave-equal? *)
From Coq Require Import List ZArith Bool Lia Relations PeanoNat.
From Verif Require Import EqualModel EqualSpec EqualProofs EqualUf.
Import ListNotations.
Local Open Scope Z_scope.

Lemma tracked_ext s s' M : ht s' = ht s -> boxes s' = boxes s -> tracked s M -> tracked s' M.
Proof.
  intros E1 E2 [[A B] T].
  assert (R : forall c q, rooted s c q <-> rooted s' c q) by (intros c q; split; intros [k K]; exists k; (eapply root_ht; [|exact K]; congruence)).
  split; [split|].
  - intros b L. unfold nb in *. rewrite E2 in L. destruct (A b L) as (r & Q). exists r. now apply R.
  - intros x b H. rewrite E1 in H. unfold nb in *. rewrite E2. eauto.
  - intros a b (ba & bb & r & Ha & Hb & Ra & Rb). apply T. exists ba, bb, r. rewrite E1 in Ha, Hb. repeat split; auto; now apply R.
Qed.
Lemma tracked0 : tracked uf0 [].
Proof.
  split; [split|].
  - intros b L. cbn in L. lia.
  - discriminate.
  - intros a b (ba & bb & r & Ha & _). discriminate.
Qed.
Section Inter.
Context (h : heap) (IO : idents_ok h) (orc : nat -> Z).
Inductive Rel (Mf : list (nat * nat)) : obj -> obj -> Prop :=
| r_atom x y : same_atom h x y -> Rel Mf x y
| r_uf a b : clos Mf a b -> Rel Mf (ORef a) (ORef b)
| r_pair a b p q p' q' : h a = NPair p q -> h b = NPair p' q' -> Rel Mf p p' -> Rel Mf q q' -> Rel Mf (ORef a) (ORef b)
| r_vec a b l l' : h a = NVec l -> h b = NVec l' -> Forall2 (Rel Mf) l l' -> Rel Mf (ORef a) (ORef b).
Inductive kids (Mf : list (nat * nat)) : nat -> nat -> Prop :=
| k_pair a b p q p' q' : h a = NPair p q -> h b = NPair p' q' -> Rel Mf p p' -> Rel Mf q q' -> kids Mf a b
| k_vec a b l l' : h a = NVec l -> h b = NVec l' -> Forall2 (Rel Mf) l l' -> kids Mf a b.
Definition done (M M' : list (nat * nat)) (s' : uf) (G : list (nat * nat) -> Prop) : Prop :=
  tracked s' (M' ++ M) /\ forall Mf, (forall p, In p (M' ++ M) -> In p Mf) -> G Mf /\ forall a b, In (a, b) M' -> kids Mf a b.
Definition sound_e (E : obj -> obj -> Z -> uf -> R) : Prop :=
  forall x y k s k' s' M, E x y k s = Some (Some k', s') -> tracked s M -> exists M', done M M' s' (fun Mf => Rel Mf x y).
Lemma vloop_sound E : sound_e E -> forall xs ys k s k' s' M, length ys = length xs -> vloop E (combine xs ys) k s = Some (Some k', s') -> tracked s M ->
  exists M', done M M' s' (fun Mf => Forall2 (Rel Mf) xs ys).
Proof.
  intros SE. induction xs as [|x xs IH]; intros [|y ys] k s k' s' M L V T; try discriminate; cbn [combine vloop] in V.
  - injection V as <- <-. exists []. split; [exact T|]. intros Mf _. split; [constructor|contradiction].
  - destruct (E x y k s) as [[[k1|] s1]|] eqn:EE; try discriminate. destruct (SE _ _ _ _ _ _ _ EE T) as (M1 & T1 & D1).
    destruct (IH ys k1 s1 k' s' (M1 ++ M)) as (M2 & T2 & D2); [now injection L|assumption|assumption|].
    exists (M2 ++ M1). split; [now rewrite <- app_assoc|]. intros Mf I. rewrite <- app_assoc in I.
    destruct (D2 Mf I) as [G2 K2]. destruct (D1 Mf) as [G1 K1]; [intros p Hp; apply I, in_or_app; now right|].
    split; [now constructor|]. intros a b Hab. apply in_app_or in Hab as [|]; auto.
Qed.
Lemma e_sound fuel : sound_e (e_p h orc fuel).
Proof.
  induction fuel as [|f IH]; intros x y k s k' s' M E T; [discriminate|]. cbn [e_p] in E.
  set (ks := if (k <=? 0) && (k =? Kb) then (orc (rnd s) mod (2 * K0), {| ht := ht s; boxes := boxes s; rnd := S (rnd s) |}) else (k, s)) in E.
  assert (TS : tracked (snd ks) M) by (unfold ks; destruct ((k <=? 0) && (k =? Kb)); [eapply tracked_ext; [| |exact T]; reflexivity|exact T]).
  destruct ks as [k0 s0]. cbn [snd] in TS. clear T s.
  assert (LEAF : forall s1, tracked s1 M -> same_atom h x y -> exists M', done M M' s1 (fun Mf => Rel Mf x y)).
  { intros s1 T1 SA. exists []. split; [exact T1|]. intros Mf _. split; [now apply r_atom|contradiction]. }
  destruct ((k <=? 0) && negb (k =? Kb)).
  - destruct (eqvp h x y) eqn:EV; [injection E as _ <-; apply LEAF; [exact TS|now apply eqvp_same]|].
    destruct x as [w|w|a].
    + cbn [pair_of vec_of] in E. destruct (equal_leaf h (OImm w) y) eqn:EL; [|discriminate]. injection E as _ <-. apply LEAF; [assumption|now apply leaf_spec].
    + cbn [pair_of vec_of] in E. destruct (equal_leaf h (OFix w) y) eqn:EL; [|discriminate]. injection E as _ <-. apply LEAF; [assumption|now apply leaf_spec].
    + destruct (pair_of h (ORef a)) as [[p q]|] eqn:PX.
      * destruct y as [| |b]; try discriminate. destruct (pair_of h (ORef b)) as [[p' q']|] eqn:PY; [|discriminate].
        apply pair_ref in PX as (a0 & Ea & HA). injection Ea as <-. apply pair_ref in PY as (b0 & Eb & HB). injection Eb as <-.
        destruct (union_spec a b s0 M TS) as (res & s1 & EU & _ & T1 & CL). rewrite EU in E. destruct res.
        -- injection E as _ <-. exists []. split; [exact T1|]. intros Mf I. split; [|contradiction]. apply r_uf. eapply clos_mono; [|apply CL; reflexivity]. exact I.
        -- destruct (e_p h orc f p p' (k0 - 1) s1) as [[[k1|] s2]|] eqn:E1; try discriminate.
           destruct (IH _ _ _ _ _ _ _ E1 T1) as (M1 & T2 & D1). destruct (IH _ _ _ _ _ _ _ E T2) as (M2 & T3 & D2).
           exists (M2 ++ M1 ++ [(a, b)]). split; [now rewrite <- !app_assoc|]. intros Mf I.
           assert (I2 : forall p, In p (M2 ++ M1 ++ (a, b) :: M) -> In p Mf) by (intros z Hz; apply I; rewrite <- !app_assoc; exact Hz).
           destruct (D2 Mf I2) as [G2 K2]. destruct (D1 Mf) as [G1 K1]; [intros z Hz; apply I2, in_or_app; now right|].
           split.
           ++ apply r_uf. apply rst_step. apply I2. apply in_or_app. right. apply in_or_app. right. now left.
           ++ intros u v Huv. apply in_app_or in Huv as [|Huv]; [auto|]. apply in_app_or in Huv as [|[Huv|[]]]; [auto|]. injection Huv as <- <-. eapply k_pair; eauto.
      * destruct (vec_of h (ORef a)) as [l|] eqn:VX.
        -- destruct y as [| |b]; try discriminate. destruct (vec_of h (ORef b)) as [l'|] eqn:VY; [|discriminate].
           destruct (Nat.eqb_spec (length l') (length l)) as [L|]; [|discriminate].
           apply vec_ref in VX as (a0 & Ea & HA). injection Ea as <-. apply vec_ref in VY as (b0 & Eb & HB). injection Eb as <-.
           destruct (union_spec a b s0 M TS) as (res & s1 & EU & _ & T1 & CL). rewrite EU in E. destruct res.
           ++ injection E as _ <-. exists []. split; [exact T1|]. intros Mf I. split; [|contradiction]. apply r_uf. eapply clos_mono; [|apply CL; reflexivity]. exact I.
           ++ destruct (vloop_sound _ IH _ _ _ _ _ _ _ L E T1) as (M1 & T2 & D1).
              exists (M1 ++ [(a, b)]). split; [now rewrite <- app_assoc|]. intros Mf I.
              assert (I2 : forall p, In p (M1 ++ (a, b) :: M) -> In p Mf) by (intros z Hz; apply I; rewrite <- app_assoc; exact Hz).
              destruct (D1 Mf I2) as [G1 K1]. split.
              ** apply r_uf. apply rst_step. apply I2. apply in_or_app. right. now left.
              ** intros u v Huv. apply in_app_or in Huv as [|[Huv|[]]]; [auto|]. injection Huv as <- <-. eapply k_vec; eauto.
        -- destruct (equal_leaf h (ORef a) y) eqn:EL; [|discriminate]. injection E as _ <-. apply LEAF; [assumption|]. apply leaf_spec; [assumption| |assumption]. now apply agg_cases.
  - destruct (eqvp h x y) eqn:EV; [injection E as _ <-; apply LEAF; [exact TS|now apply eqvp_same]|].
    destruct (pair_of h x) as [[p q]|] eqn:PX.
    + destruct (pair_of h y) as [[p' q']|] eqn:PY; [|discriminate].
      apply pair_ref in PX as (a & -> & HA). apply pair_ref in PY as (b & -> & HB).
      destruct (e_p h orc f p p' (k0 - 1) s0) as [[[k1|] s2]|] eqn:E1; try discriminate.
      destruct (IH _ _ _ _ _ _ _ E1 TS) as (M1 & T2 & D1). destruct (IH _ _ _ _ _ _ _ E T2) as (M2 & T3 & D2).
      exists (M2 ++ M1). split; [now rewrite <- app_assoc|]. intros Mf I. rewrite <- app_assoc in I.
      destruct (D2 Mf I) as [G2 K2]. destruct (D1 Mf) as [G1 K1]; [intros z Hz; apply I, in_or_app; now right|].
      split; [eapply r_pair; eauto|]. intros u v Huv. apply in_app_or in Huv as [|]; auto.
    + destruct (vec_of h x) as [l|] eqn:VX.
      * destruct (vec_of h y) as [l'|] eqn:VY; [|discriminate]. destruct (Nat.eqb_spec (length l') (length l)) as [L|]; [|discriminate].
        apply vec_ref in VX as (a & -> & HA). apply vec_ref in VY as (b & -> & HB).
        destruct (vloop_sound _ IH _ _ _ _ _ _ _ L E TS) as (M1 & T2 & D1). exists M1. split; [exact T2|]. intros Mf I. destruct (D1 Mf I) as [G K]. split; [eapply r_vec; eauto|exact K].
      * destruct (equal_leaf h x y) eqn:EL; [|discriminate]. injection E as _ <-. apply LEAF; [assumption|]. apply leaf_spec; [assumption| |assumption]. now apply agg_cases.
Qed.
(** all that was merged has been compared: the relation is a bisimulation *)
Definition T (Mf : list (nat * nat)) : obj -> obj -> Prop := clos_refl_sym_trans obj (Rel Mf).
Lemma step_sym (P : obj -> obj -> Prop) x y : (forall a b, P a b -> P b a) -> step_rel h P x y -> step_rel h P y x.
Proof.
  intros S Q. inversion Q; subst; [constructor; now apply same_atom_sym|eapply sr_pair; eauto|eapply sr_vec; eauto]. 
  apply Forall2_flip in H1. eapply Forall2_impl; [|exact H1]. cbn. auto.
Qed.
Lemma step_trans (P : obj -> obj -> Prop) x y z : (forall a, P a a) -> (forall a b c, P a b -> P b c -> P a c) -> step_rel h P x y -> step_rel h P y z -> step_rel h P x z.
Proof.
  intros RF TR S1 S2.
  inversion S1 as [? ? A1|a1 b1 p q p' q' E1 E2 P1 Q1|a1 b1 l l' E1 E2 F1]; subst; inversion S2 as [? ? A2|a2 b2 p2 q2 p2' q2' E3 E4 P2 Q2|a2 b2 l2 l2' E3 E4 F2]; subst.
  - constructor. eapply same_atom_trans; eassumption.
  - apply (same_atom_agg_r h IO) in A1; [|eapply agg_pair; eassumption]. subst. eapply sr_pair; eauto.
  - apply (same_atom_agg_r h IO) in A1; [|eapply agg_vec; eassumption]. subst. eapply sr_vec; eauto.
  - apply (same_atom_agg h IO) in A2; [|eapply agg_pair; eassumption]. subst. eapply sr_pair; eauto.
  - rewrite E2 in E3. injection E3 as <- <-. eapply sr_pair; eauto.
  - congruence.
  - apply (same_atom_agg h IO) in A2; [|eapply agg_vec; eassumption]. subst. eapply sr_vec; eauto.
  - congruence.
  - rewrite E2 in E3. injection E3 as <-. eapply sr_vec; eauto. eapply Forall2_impl; [|eapply Forall2_comp; eassumption]. intros a b (c & A & B). eauto.
Qed.
Lemma T_bisim Mf : (forall a b, In (a, b) Mf -> kids Mf a b) -> forall x y, T Mf x y -> step_rel h (T Mf) x y.
Proof.
  intros K. assert (SY : forall a b, T Mf a b -> T Mf b a) by (intros; now apply rst_sym).
  assert (RF : forall a, T Mf a a) by (intros; apply rst_refl). assert (TR : forall a b c, T Mf a b -> T Mf b c -> T Mf a c) by (intros; eapply rst_trans; eassumption).
  assert (RT : forall l l', Forall2 (Rel Mf) l l' -> Forall2 (T Mf) l l') by (intros l l' F; eapply Forall2_impl; [|exact F]; intros; now apply rst_step).
  assert (CL : forall a b, clos Mf a b -> step_rel h (T Mf) (ORef a) (ORef b)).
  { induction 1 as [a b I| |a b C IH|a b c C1 IH1 C2 IH2].
    - destruct (K _ _ I) as [a b p q p' q' HA HB R1 R2|a b l l' HA HB F]; [eapply sr_pair; eauto; now apply rst_step|eapply sr_vec; eauto].
    - constructor. constructor.
    - now apply step_sym.
    - eapply step_trans; eauto. }
  induction 1 as [x y R| |x y C IH|x y z C1 IH1 C2 IH2].
  - inversion R; subst; [now constructor|auto|eapply sr_pair; eauto; now apply rst_step|eapply sr_vec; eauto].
  - constructor. constructor.
  - now apply step_sym.
  - eapply step_trans; eauto.
Qed.
Lemma interleave_sound fuel x y : interleave_equal h orc fuel x y = Some true -> same_datum h x y.
Proof.
  unfold interleave_equal. destruct (e_p h orc fuel x y K0 uf0) as [[[k'|] s']|] eqn:E; try discriminate. intros _.
  destruct (e_sound _ _ _ _ _ _ _ _ E tracked0) as (M & T1 & D). rewrite app_nil_r in *. destruct (D M) as [G K]; [auto|].
  exists (T M). split; [now apply T_bisim|]. now apply rst_step.
Qed.
(** no false negatives *)
Definition complete_e (E : obj -> obj -> Z -> uf -> R) : Prop := forall x y k s s', same_datum h x y -> E x y k s = Some (None, s') -> False.
Lemma vloop_complete E : complete_e E -> forall xs ys k s s', Forall2 (same_datum h) xs ys -> vloop E (combine xs ys) k s = Some (None, s') -> False.
Proof.
  intros CE xs ys k s s' F. revert k s. induction F as [|x y xs ys S F IH]; intros k s; cbn [combine vloop]; [discriminate|].
  destruct (E x y k s) as [[[k1|] s1]|] eqn:EE; [apply IH|intros _; eapply CE; eassumption|discriminate].
Qed.
Lemma leaf_complete x y : agg h x = false -> same_datum h x y -> equal_leaf h x y = true.
Proof. intros A S. apply leaf_spec; [assumption|assumption|]. apply same_leaf; assumption. Qed.
Lemma e_complete fuel : complete_e (e_p h orc fuel).
Proof.
  induction fuel as [|f IH]; intros x y k s s' SD; cbn [e_p]; [discriminate|].
  destruct (if (k <=? 0) && (k =? Kb) then (orc (rnd s) mod (2 * K0), {| ht := ht s; boxes := boxes s; rnd := S (rnd s) |}) else (k, s)) as [k0 s0].
  destruct ((k <=? 0) && negb (k =? Kb)).
  - destruct (eqvp h x y) eqn:EV; [discriminate|]. destruct x as [w|w|a].
    + cbn [pair_of vec_of]. rewrite (leaf_complete (OImm w)) by (auto). discriminate.
    + cbn [pair_of vec_of]. rewrite (leaf_complete (OFix w)) by (auto). discriminate.
    + destruct (pair_of h (ORef a)) as [[p q]|] eqn:PX.
      * destruct (same_pair_only h IO _ _ _ _ PX SD) as (p' & q' & PY). destruct (proj1 (same_pair h IO _ _ _ _ _ _ PX PY) SD) as [S1 S2].
        destruct y as [| |b]; try discriminate PY. rewrite PY.
        destruct (union_find a b s0) as [[[] s1]|]; try discriminate.
        destruct (e_p h orc f p p' (k0 - 1) s1) as [[[k1|] s2]|] eqn:E1; [apply IH; exact S2|intros _; eapply IH; [exact S1|exact E1]|discriminate].
      * destruct (vec_of h (ORef a)) as [l|] eqn:VX.
        -- destruct (same_vec_only h IO _ _ _ VX SD) as (l' & VY & L). pose proof (proj1 (same_vec h IO _ _ _ _ VX VY) SD) as F.
           destruct y as [| |b]; try discriminate VY. rewrite VY, L, Nat.eqb_refl.
           destruct (union_find a b s0) as [[[] s1]|]; try discriminate. eapply vloop_complete; [exact IH|exact F].
        -- rewrite (leaf_complete (ORef a)); [discriminate|now apply agg_cases|assumption].
  - destruct (eqvp h x y) eqn:EV; [discriminate|].
    destruct (pair_of h x) as [[p q]|] eqn:PX.
    + destruct (same_pair_only h IO _ _ _ _ PX SD) as (p' & q' & PY). rewrite PY. destruct (proj1 (same_pair h IO _ _ _ _ _ _ PX PY) SD) as [S1 S2].
      destruct (e_p h orc f p p' (k0 - 1) s0) as [[[k1|] s2]|] eqn:E1; [apply IH; exact S2|intros _; eapply IH; [exact S1|exact E1]|discriminate].
    + destruct (vec_of h x) as [l|] eqn:VX.
      * destruct (same_vec_only h IO _ _ _ VX SD) as (l' & VY & L). rewrite VY. pose proof (proj1 (same_vec h IO _ _ _ _ VX VY) SD) as F. rewrite L, Nat.eqb_refl.
        eapply vloop_complete; [exact IH|exact F].
      * rewrite (leaf_complete x); [discriminate|now apply agg_cases|assumption].
Qed.
Lemma interleave_complete fuel x y : same_datum h x y -> interleave_equal h orc fuel x y <> Some false.
Proof.
  unfold interleave_equal. intros S. destruct (e_p h orc fuel x y K0 uf0) as [[[k'|] s']|] eqn:E; try discriminate. exfalso. eapply e_complete; eassumption.
Qed.
(** termination *)
Section Acyclic.
Context (rank : nat -> nat) (RK : forall a b, child h a b -> (rank b < rank a)%nat).
Notation rk := (rk rank).
Definition total_e (E : obj -> obj -> Z -> uf -> R) (n : nat) : Prop :=
  forall x y k s M, (rk x < n)%nat -> tracked s M -> exists o s' M', E x y k s = Some (o, s') /\ tracked s' M'.
Lemma vloop_total E n : total_e E n -> forall xs ys k s M, (forall x, In x xs -> (rk x < n)%nat) -> tracked s M ->
  exists o s' M', vloop E (combine xs ys) k s = Some (o, s') /\ tracked s' M'.
Proof.
  intros TE. induction xs as [|x xs IH]; intros [|y ys] k s M L TR; cbn [combine vloop]; eauto.
  destruct (TE x y k s M) as (o & s1 & M1 & E1 & T1); [apply L; now left|assumption|]. rewrite E1. destruct o as [k1|]; [|eauto].
  eapply IH; [|eassumption]. intros z Hz. apply L. now right.
Qed.
Lemma e_total fuel : total_e (e_p h orc fuel) fuel.
Proof.
  induction fuel as [|f IH]; intros x y k s M L TR; [lia|]. cbn [e_p].
  set (ks := if (k <=? 0) && (k =? Kb) then (orc (rnd s) mod (2 * K0), {| ht := ht s; boxes := boxes s; rnd := S (rnd s) |}) else (k, s)).
  assert (TS : tracked (snd ks) M) by (unfold ks; destruct ((k <=? 0) && (k =? Kb)); [eapply tracked_ext; [| |exact TR]; reflexivity|exact TR]).
  destruct ks as [k0 s0]. cbn [snd] in TS. clear TR s.
  destruct ((k <=? 0) && negb (k =? Kb)).
  - destruct (eqvp h x y); [eauto|]. destruct x as [w|w|a]; [cbn [pair_of vec_of]; eauto|cbn [pair_of vec_of]; eauto|].
    destruct (pair_of h (ORef a)) as [[p q]|] eqn:PX.
    + destruct y as [| |b]; eauto. destruct (pair_of h (ORef b)) as [[p' q']|] eqn:PY; [|eauto].
      destruct (union_spec a b s0 M TS) as (res & s1 & EU & _ & T1 & _). rewrite EU. destruct res; [eauto|].
      destruct (rk_cdr h rank RK _ _ _ PX) as [Lq Lp].
      destruct (IH p p' (k0 - 1) s1 _ ltac:(lia) T1) as (o & s2 & M2 & E2 & T2). rewrite E2. destruct o as [k1|]; [|eauto]. eapply IH; [lia|eassumption].
    + destruct (vec_of h (ORef a)) as [l|] eqn:VX; [|eauto].
      destruct y as [| |b]; eauto. destruct (vec_of h (ORef b)) as [l'|] eqn:VY; [|eauto].
      destruct (Nat.eqb (length l') (length l)); [|eauto].
      destruct (union_spec a b s0 M TS) as (res & s1 & EU & _ & T1 & _). rewrite EU. destruct res; [eauto|].
      eapply vloop_total; [exact IH| |exact T1]. intros z Hz. pose proof (rk_vec h rank RK _ _ _ VX Hz). lia.
  - destruct (eqvp h x y); [eauto|]. destruct (pair_of h x) as [[p q]|] eqn:PX.
    + destruct (pair_of h y) as [[p' q']|] eqn:PY; [|eauto]. destruct (rk_cdr h rank RK _ _ _ PX) as [Lq Lp].
      destruct (IH p p' (k0 - 1) s0 _ ltac:(lia) TS) as (o & s2 & M2 & E2 & T2). rewrite E2. destruct o as [k1|]; [|eauto]. eapply IH; [lia|eassumption].
    + destruct (vec_of h x) as [l|] eqn:VX; [|eauto]. destruct (vec_of h y) as [l'|] eqn:VY; [|eauto].
      destruct (Nat.eqb (length l') (length l)); [|eauto].
      eapply vloop_total; [exact IH| |exact TS]. intros z Hz. pose proof (rk_vec h rank RK _ _ _ VX Hz). lia.
Qed.
Lemma interleave_total fuel x y : (rk x < fuel)%nat -> exists b, interleave_equal h orc fuel x y = Some b.
Proof.
  intros L. unfold interleave_equal. destruct (e_total fuel x y K0 uf0 [] L tracked0) as (o & s' & M' & E & _). rewrite E. destruct o; eauto.
Qed.
End Acyclic.
End Inter.
