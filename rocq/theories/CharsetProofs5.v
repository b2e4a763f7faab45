From Coq Require Import ZArith List Bool Arith Lia Sorting.Sorted.
From Verif Require Import Outcome BitsModel BitsSpec BitsProofs BitsProofs2 BitsProofs3 BitsProps TreeModel TreeApi TreeSpec TreeProofs TreeProofs2 TreeProofs3 TreeProofs4 CharsetModel CharsetSpec CharsetProofs CharsetProofs2 CharsetProofs3 CharsetProofs4.
Import ListNotations.
Local Open Scope Z_scope.
Ltac Zify.zify_post_hook ::= idtac.

Lemma copy_small_ok : forall d s ld ls, repr d ld -> repr s ls -> exists w, copy_small d s = Ok (set_wds d w) /\ repr (set_wds d w) ld /\
  large_p (set_wds d w) = large_p d /\ immutable_p (set_wds d w) = immutable_p d /\ forall i, (i < 128)%nat -> at_ w 0 i = at_ (wds s) 0 i.
Proof.
  intros d s ld ls (L & M & G & Lg & R) (Ls & Ms & _). unfold copy_small.
  destruct (bits_copy_partial (wds d ++ wds s) 0 0 3 0 SMALL_CHARS) as (m & E & Mw & Lw & A1 & A2); auto using memory_app; try (unfold array; rewrite ?app_length; unfold SMALL_CHARS; lia).
  rewrite E. cbn [bind]. rewrite app_length in Lw. exists (firstn 3 m). split; auto.
  assert (Fl : forall i, (i < 64)%nat -> at_ (firstn 3 m) 0 (128 + i) = at_ (wds d) 0 (128 + i)). { intros i Hi. rewrite at_firstn by lia. rewrite <- (at_left (wds d) (wds s)) by lia. unfold at_ at 1. rewrite A2; [reflexivity|]. unfold SMALL_CHARS. lia. }
  assert (Lp : large_p (set_wds d (firstn 3 m)) = large_p d) by (rewrite !large_at; apply (Fl 0%nat); lia).
  assert (Ip : immutable_p (set_wds d (firstn 3 m)) = immutable_p d) by (rewrite !immutable_at; apply (Fl 1%nat); lia).
  split; [|split; [auto|split; [auto|]]].
  - split; [unfold set_wds; cbn [wds]; rewrite firstn_length; lia|]. split; [apply memory_firstn; auto|]. split; auto. rewrite Lp, Ip. auto.
  - intros i Hi. rewrite at_firstn by lia. specialize (A1 i). cbn [Nat.add] in A1. rewrite A1 by (unfold SMALL_CHARS; lia). now apply at_right.
Qed.
Lemma copy_vec_ok : forall q t, tinv t -> gapped 128 (rgs t ++ q) -> exists t', copy_vec t q = Ok t' /\ tinv t' /\ rgs t' = rgs t ++ q.
Proof.
  induction q as [|[x y] q IH]; intros t I G; cbn [copy_vec].
  - exists t. now rewrite app_nil_r.
  - pose proof G as G0. apply gapped_app in G. destruct G as [G1 G2]. cbn [gapped] in G2. destruct (put_entry_ok t x y (els t) [] I) as (t1 & e & P & I1 & E1 & K1); auto.
    + apply rgs_num; auto. + now rewrite app_nil_r.
    + apply klt_map. fold (rgs t). eapply Forall_impl; [|apply (bnd_above _ _ G1)]. cbn. intros; lia.
    + rewrite P. cbn [bind]. assert (R1 : rgs t1 = rgs t ++ [(x, y)]). { unfold rgs. rewrite E1, map_app. cbn [map]. now rewrite K1. }
      destruct (IH t1 I1) as (t' & C & I' & R'); [rewrite R1, <- app_assoc; exact G0|]. exists t'. split; auto. split; auto. rewrite R', R1, <- app_assoc. reflexivity.
Qed.
Lemma core_copy_rgs : forall t, tinv t -> gapped 128 (rgs t) -> tinv (core_copy t) /\ rgs (core_copy t) = rgs t.
Proof.
  intros t I G. destruct (core_copy_good ccmp t (conj I (full_of t G))) as ([I' Fu] & A & _). split; auto.
  pose proof (full_of t G) as Ft. unfold abs in A. clear - A Fu Ft. fold (els (core_copy t)) in *. fold (els t) in *. unfold rgs. revert A Fu Ft. generalize (els (core_copy t)) (els t). induction l as [|[[i k] v] l IH]; intros [|[[j q] w] l'] A Fa Fb; auto; try (inversion Fa; subst; cbn in *; destruct v; [discriminate|congruence]); try (inversion Fb; subst; cbn in *; destruct w; [discriminate|congruence]).
  inversion Fa; subst. inversion Fb; subst. cbn [snd] in *. destruct v as [v|]; [|congruence]. destruct w as [w|]; [|congruence]. cbn in A. inversion A; subst. cbn [map]. f_equal. apply IH; auto.
Qed.
Lemma holds_small : forall a b l, (forall i, (i < 128)%nat -> at_ (wds a) 0 i = at_ (wds b) 0 i) -> forall c, 0 <= c -> (holds a l c <-> holds b l c).
Proof. intros a b l H c Hc. unfold holds. destruct (Z.ltb_spec c 128); [|tauto]. rewrite H by lia. tauto. Qed.
Lemma rgs_nil_root : forall t, rgs t = [] -> root t = E.
Proof. intros t H. unfold rgs, els in H. destruct (root t) as [|c a i k v b]; auto. cbn [elements] in H. rewrite map_app in H. destruct (map kv (elements a)); discriminate. Qed.
Lemma copy_ok : forall src l, repr src l -> exists cs, char_set_copy src = Ok cs /\ repr cs l /\ immutable_p cs = false /\ forall c, 0 <= c -> (holds cs l c <-> holds src l c).
Proof.
  intros src l R. destruct make_ok as (d0 & E0 & R0 & Im0 & Lp0 & Lr0 & _). unfold char_set_copy. rewrite E0. cbn [bind].
  destruct (copy_small_ok d0 src [] l R0 R) as (w & E1 & R1 & Lp1 & Ip1 & At1). rewrite E1. cbn [bind]. cbv zeta.
  destruct R1 as (L1 & M1 & _). destruct (set_large_facts (set_wds d0 w) (large_p src) L1 M1) as (L2 & M2 & Lp2 & Ip2 & Lr2 & At2).
  assert (Done : forall t', tinv t' -> rgs t' = l -> exists cs, Ok (set_lrg (set_large (set_wds d0 w) (large_p src)) (LTree t')) = Ok cs /\ repr cs l /\ immutable_p cs = false /\ forall c, 0 <= c -> (holds cs l c <-> holds src l c)).
  { intros t' I' R'. eexists. split; [reflexivity|]. destruct R as (_ & _ & G & Lg & _). assert (Im : immutable_p (set_large (set_wds d0 w) (large_p src)) = false) by congruence. split; [|split].
    - split; [exact L2|]. split; [exact M2|]. split; [exact G|]. unfold set_lrg, large_p at 1, immutable_p, flags. cbn [wds lrg]. fold (flags (set_large (set_wds d0 w) (large_p src))). fold (large_p (set_large (set_wds d0 w) (large_p src))). rewrite Lp2. split; auto. split; auto. split; auto. fold (immutable_p (set_large (set_wds d0 w) (large_p src))). rewrite Im. discriminate.
    - exact Im.
    - apply holds_small. intros i Hi. change (wds (set_lrg (set_large (set_wds d0 w) (large_p src)) (LTree t'))) with (wds (set_large (set_wds d0 w) (large_p src))). rewrite At2 by auto. apply At1; auto. }
  pose proof (src_ranges_ok src l R) as Sr. destruct R as (Ls & Ms & G & Lg & Rs). destruct (immutable_p src) eqn:Im.
  - unfold tree_of. rewrite Lr2. cbn [lrg set_wds]. rewrite Lr0. destruct (vec_of src) as [v| | |]; try discriminate. cbn [bind] in Sr |- *. rewrite Sr. cbn [bind].
    destruct R0 as (_ & _ & _ & _ & R0). rewrite Lr0 in R0. destruct R0 as (I0 & _).
    destruct (copy_vec_ok l core_init I0 G) as (t' & C & I' & R'). rewrite C. cbn [bind]. apply Done; auto.
  - unfold tree_of. destruct (lrg src) as [t|v]; [|destruct Rs; congruence]. destruct Rs as (I & Rg & _). cbn [bind]. destruct (core_copy_rgs t I ltac:(now rewrite Rg)) as [I' R']. apply Done; auto. congruence.
Qed.
Lemma freeze_vec_ok : forall src l, repr src l -> immutable_p src = false -> large_p src = true -> freeze_vec src = Ok (flatten l).
Proof.
  intros src l R Im Lp. unfold freeze_vec. rewrite Im. pose proof (iter_ranges_ok src l R) as It. destruct R as (Ls & Ms & G & Lg & Rs). unfold tree_of. destruct (lrg src) as [t|v]; [|destruct Rs; congruence]. destruct Rs as (I & Rg & _). cbn [bind]. rewrite It. cbn [bind]. destruct (rgs_num t I ltac:(now rewrite Rg)) as [_ N]. rewrite N, Rg, Z.eqb_refl. reflexivity.
Qed.
Lemma freeze_ok : forall src l, repr src l -> exists cs, char_set_freeze src = Ok cs /\ repr cs l /\ immutable_p cs = true /\ forall c, 0 <= c -> (holds cs l c <-> holds src l c).
Proof.
  intros src l R. unfold char_set_freeze. destruct (immutable_p src) eqn:Im; [exists src; split; auto; split; auto; split; auto; tauto|].
  destruct make_ok as (d0 & E0 & R0 & Im0 & Lp0 & Lr0 & _). rewrite E0. cbn [bind].
  destruct (copy_small_ok d0 src [] l R0 R) as (w & E1 & R1 & Lp1 & Ip1 & At1). rewrite E1. cbn [bind]. cbv zeta.
  destruct R1 as (L1 & M1 & _). destruct (set_immutable_facts (set_wds d0 w) L1 M1) as (L2 & M2 & Lp2 & Ip2 & Lr2 & At2).
  assert (Done : forall d l', length (wds d) = 3%nat -> memory (wds d) -> immutable_p d = true -> (large_p d = false -> l' = []) -> l' = l -> (forall i, (i < 128)%nat -> at_ (wds d) 0 i = at_ w 0 i) ->
    exists cs, Ok (set_lrg d (LFrozen (flatten l))) = Ok cs /\ repr cs l /\ immutable_p cs = true /\ forall c, 0 <= c -> (holds cs l c <-> holds src l c)).
  { intros d l' Ld Md Id Lgd -> At. eexists. split; [reflexivity|]. destruct R as (_ & _ & G & _). split; [|split; [exact Id|]].
    - split; [exact Ld|]. split; [exact Md|]. split; [exact G|]. split; [exact Lgd|]. cbn [lrg set_lrg]. split; [reflexivity|exact Id].
    - apply holds_small. intros i Hi. change (wds (set_lrg d (LFrozen (flatten l)))) with (wds d). rewrite At by auto. auto. }
  destruct (large_p src) eqn:Lp.
  - rewrite (freeze_vec_ok src l R Im Lp). cbn [bind]. destruct (set_large_facts (set_immutable (set_wds d0 w)) true L2 M2) as (L3 & M3 & Lp3 & Ip3 & Lr3 & At3).
    apply (Done _ l); auto; [congruence|congruence|]. intros i Hi. rewrite At3, At2 by auto. reflexivity.
  - assert (l = []) by (apply R; auto). subst l. apply (Done _ []); auto.
Qed.
Lemma freezex_ok : forall src l, repr src l -> exists cs, char_set_freezex src = Ok cs /\ repr cs l /\ immutable_p cs = true /\ forall c, 0 <= c -> (holds cs l c <-> holds src l c).
Proof.
  intros src l R. unfold char_set_freezex. destruct (immutable_p src) eqn:Im; [exists src; split; auto; split; auto; split; auto; tauto|]. pose proof R as (L & M & G & Lg & Rs). destruct (large_p src) eqn:Lp.
  - rewrite (freeze_vec_ok src l R Im Lp). cbn [bind]. destruct (set_immutable_facts (set_lrg src (LFrozen (flatten l))) L M) as (L2 & M2 & Lp2 & Ip2 & Lr2 & At2). eexists. split; [reflexivity|]. split; [|split; [auto|apply holds_small; exact At2]].
    split; auto. split; auto. split; auto. rewrite Lp2, Ip2, Lr2. cbn [set_lrg lrg]. split; auto. unfold large_p, flags in *. cbn [wds set_lrg] in *. congruence.
  - assert (l = []) by auto. subst l. destruct (set_immutable_facts src L M) as (L2 & M2 & Lp2 & Ip2 & Lr2 & At2). eexists. split; [reflexivity|]. split; [|split; [auto|apply holds_small; exact At2]].
    split; auto. split; auto. split; auto. rewrite Lr2. split; auto. destruct (lrg src) as [t|v]; [|destruct Rs; congruence]. tauto.
Qed.

(** *** the list of ranges *)
Definition asc (l : list (Z * Z)) : Prop := StronglySorted (fun p q => snd p < fst q) l.
Definition inb (b e : Z) (l : list (Z * Z)) : Prop := Forall (fun r => b <= fst r <= snd r /\ snd r <= e) l.
Lemma small_ranges_ok : forall n ind w begin prev, memory w -> (ind + n = 128)%nat -> length w = 3%nat ->
  (prev = true -> (begin < ind)%nat /\ forall i, (begin <= i < ind)%nat -> at_ w 0 i = true) ->
  exists l, small_ranges n ind w begin prev = Ok l /\ asc l /\ inb (if prev then Z.of_nat begin else Z.of_nat ind) 127 l /\
    (forall c, covers l c <-> (prev = true /\ Z.of_nat begin <= c < Z.of_nat ind) \/ (Z.of_nat ind <= c < 128 /\ at_ w 0 (Z.to_nat c) = true)).
Proof.
  induction n as [|n IH]; intros ind w begin prev M Hn L Hp; cbn [small_ranges].
  - destruct prev.
    + destruct (Hp eq_refl) as [Hb Ha]. eexists. split; [reflexivity|]. split; [repeat constructor|]. split; [constructor; [cbn [fst snd]; lia|constructor]|]. intros c. rewrite covers_cons, covers_nil. split; [intros [?|[]]; left; split; [auto|lia]|intros [[_ ?]|[? _]]; [left; lia|lia]].
    + eexists. split; [reflexivity|]. split; [constructor|]. split; [constructor|]. intros c. rewrite covers_nil. split; [tauto|]. intros [[? _]|[? _]]; [discriminate|lia].
  - rewrite bits_test_ok by (auto; lia). cbn [bind]. set (b := at_ w 0 ind). cbv zeta.
    assert (Step : forall c, Z.of_nat ind <= c < 128 /\ at_ w 0 (Z.to_nat c) = true <-> (c = Z.of_nat ind /\ b = true) \/ (Z.of_nat (S ind) <= c < 128 /\ at_ w 0 (Z.to_nat c) = true)).
    { intros c. unfold b. split.
      - intros [Hc Ha]. destruct (Z.eq_dec c (Z.of_nat ind)) as [->|]; [rewrite Nat2Z.id in Ha; auto|right; split; [lia|auto]].
      - intros [[-> Hb]|[Hc Ha]]; [rewrite Nat2Z.id; split; [lia|auto]|split; [lia|auto]]. }
    destruct prev; cbn [negb andb].
    + destruct (Hp eq_refl) as [Hb Ha]. destruct b eqn:Eb; cbn [negb andb].
      * destruct (IH (S ind) w begin true M ltac:(lia) L) as (l & E & A & I & C). { intros _. split; [lia|]. intros i Hi. destruct (Nat.eq_dec i ind) as [->|]; [exact Eb|apply Ha; lia]. }
        rewrite E. cbn [bind]. exists l. split; auto. split; auto. split; auto. intros c. rewrite C, Step. rewrite Nat2Z.inj_succ. split; [intros [[_ ?]|?]|intros [[_ ?]|[[-> _]|?]]]; auto.
        -- destruct (Z.eq_dec c (Z.of_nat ind)); [right; left; auto|left; split; [auto|lia]].
        -- left; split; [auto|lia]. -- left; split; [auto|lia].
      * destruct (IH (S ind) w begin false M ltac:(lia) L ltac:(discriminate)) as (l & E & A & I & C). rewrite E. cbn [bind]. eexists. split; [reflexivity|]. unfold inb in I. split; [|split].
        -- constructor; auto. eapply Forall_impl; [|exact I]. cbn. intros; lia.
        -- constructor; [cbn [fst snd]; lia|]. eapply Forall_impl; [|exact I]. cbn. intros; lia.
        -- intros c. rewrite covers_cons, C, Step. rewrite Nat2Z.inj_succ. split.
           ++ intros [?|[[? _]|?]]; [left; split; [auto|lia]|discriminate|auto].
           ++ intros [[_ ?]|[[_ ?]|?]]; [left; lia|discriminate|auto].
    + destruct b eqn:Eb; cbn [negb andb].
      * destruct (IH (S ind) w ind true M ltac:(lia) L) as (l & E & A & I & C). { intros _. split; [lia|]. intros i Hi. replace i with ind by lia. exact Eb. }
        rewrite E. cbn [bind]. exists l. split; auto. split; auto. split; auto. intros c. rewrite C, Step. rewrite Nat2Z.inj_succ. split; [intros [[_ ?]|?]|intros [[? _]|[[-> _]|?]]]; auto; try discriminate.
        -- right. left. split; [lia|auto]. -- left; split; [auto|lia].
      * destruct (IH (S ind) w begin false M ltac:(lia) L ltac:(discriminate)) as (l & E & A & I & C). rewrite E. cbn [bind]. exists l. split; auto. split; auto. unfold inb in I. split; [eapply Forall_impl; [|exact I]; cbn; intros; lia|]. intros c. rewrite C, Step. split; [intros [[? _]|?]; [discriminate|auto]|intros [[? _]|[[_ ?]|?]]; [discriminate|discriminate|auto]].
Qed.
Lemma gapped_asc : forall l b, gapped b l -> asc l.
Proof.
  induction l as [|[x y] l IH]; intros b G; cbn [gapped] in G; constructor.
  - eapply IH. apply G. - destruct G as (_ & _ & G). eapply Forall_impl; [|apply (gapped_all _ _ G)]. cbn. intros; lia.
Qed.
Lemma asc_app : forall a b, asc (a ++ b) <-> asc a /\ asc b /\ Forall (fun x => Forall (fun y => snd x < fst y) b) a.
Proof. intros. apply SS_app_iff. Qed.
Lemma ranges_ok : forall cs l, repr cs l -> exists r, char_set_ranges cs = Ok r /\ asc r /\ inb 0 MAX r /\ forall c, 0 <= c -> (covers r c <-> holds cs l c).
Proof.
  intros cs l R. pose proof (iter_ranges_ok cs l R) as It. destruct R as (L & M & G & _). unfold char_set_ranges.
  destruct (small_ranges_ok 128 0 (wds cs) 0 false M ltac:(lia) L ltac:(discriminate)) as (a & E & A & I & C). change SMALL_CHARS with 128%nat. rewrite E. cbn [bind]. rewrite It. cbn [bind]. exists (a ++ l). split; auto. unfold inb in *. pose proof (gapped_all _ _ G) as Ga. split; [|split].
  - apply asc_app. split; auto. split; [eapply gapped_asc; eauto|]. eapply Forall_impl; [|exact I]. cbn. intros x Hx. eapply Forall_impl; [|exact Ga]. cbn. intros; lia.
  - apply Forall_app. split; [eapply Forall_impl; [|exact I]; cbn; intros; lia|eapply Forall_impl; [|exact Ga]; cbn; intros; lia].
  - intros c Hc. rewrite covers_app, C. unfold holds. destruct (Z.ltb_spec c 128).
    + split; [intros [[[? _]|[_ ?]]|Hx]; [discriminate|auto|apply (covers_ge _ _ _ G) in Hx; lia]|intros; left; right; split; [lia|auto]].
    + split; [intros [[[? _]|[? _]]|?]; [discriminate|lia|auto]|auto].
Qed.

(** *** histories *)
Definition sim (cs : charset) (s : sset) : Prop := exists l, repr cs l /\ immutable_p cs = frozen s /\ forall c, char c -> (holds cs l c <-> mem s c).
Lemma sim_nth : forall st ss i c, Forall2 sim st ss -> nth_error st i = Some c -> exists s, nth_error ss i = Some s /\ sim c s.
Proof. intros st ss i c H. revert i. induction H as [|x y st ss Hxy H IH]; intros [|i] E; cbn in *; try discriminate; [inversion E; subst; eauto|eauto]. Qed.
Lemma sim_none : forall st ss i, Forall2 sim st ss -> nth_error st i = None -> nth_error ss i = None.
Proof. intros st ss i H. revert i. induction H as [|x y st ss Hxy H IH]; intros [|i] E; cbn in *; try discriminate; auto. Qed.
Lemma sim_rep : forall st ss i c s, Forall2 sim st ss -> sim c s -> Forall2 sim (replace st i c) (srep ss i s).
Proof.
  intros st ss i c s H Hs. unfold replace, srep. apply Forall2_app.
  - revert i. induction H; intros [|i]; cbn; constructor; auto.
  - constructor; auto. revert i. induction H as [|x y st ss Hxy H IH]; intros i; cbn [skipn]; [constructor|]. destruct i as [|i]; [exact H|apply IH].
Qed.
Lemma char_dec : forall c, {char c} + {~ char c}.
Proof. intros c. unfold char. destruct (Z_le_dec 0 c), (Z_le_dec c MAX); [left; lia|right; lia..]. Qed.
Lemma step_ok : forall o st ss, Forall2 sim st ss -> exists st' ss' a, csstep st o = Ok (st', a) /\ spec_step ss o ss' a /\ Forall2 sim st' ss'.
Proof.
  intros o st ss H. destruct o as [|i from to|i j|i|i|i|i|i c|i j|i j|i]; cbn [csstep]; unfold with1.
  - destruct make_ok as (cs & E & R & Im & _ & _ & At). rewrite E. cbn [create]. do 3 eexists. split; [reflexivity|]. split; [apply SNew|]. apply Forall2_app; auto. constructor; [|constructor]. exists []. split; auto. split; auto. intros c Hc. cbn [mem]. unfold holds. destruct (Z.ltb_spec c 128); [rewrite At by (unfold char in Hc; lia); split; [discriminate|tauto]|apply covers_nil].
  - destruct (nth_error st i) as [c|] eqn:Ei; [|do 3 eexists; split; [reflexivity|]; split; [apply SErrNone with (i := i); [eapply sim_none; eauto|reflexivity]|auto]].
    destruct (sim_nth _ _ _ _ H Ei) as (s & Es & l & R & Im & Hm). unfold add_range_checked. change CHAR_MAX with MAX.
    destruct (char_dec from) as [Cf|Cf]; [destruct (char_dec to) as [Ct|Ct]|].
    + replace ((from <? 0) || (MAX <? from) || (to <? 0) || (MAX <? to)) with false; [|unfold char in *; symmetry; rewrite !orb_false_iff, !Z.ltb_ge; lia]. destruct (immutable_p c) eqn:Ic.
      * unfold add_range. rewrite Ic. cbn [update]. do 3 eexists. split; [reflexivity|]. split; [apply SErrFrozen with (i := i) (s := s); auto|auto].
      * destruct (add_range_ok c l from to R Ic Cf Ct) as (c' & l' & E & R' & Im' & H'). rewrite E. cbn [update]. do 3 eexists. split; [reflexivity|]. split; [eapply SAdd; eauto|]. apply sim_rep; auto. exists l'. split; auto. split; auto. intros x Hx. cbn [mem]. rewrite H' by (unfold char in Hx; lia). rewrite Hm by auto. tauto.
    + replace ((from <? 0) || (MAX <? from) || (to <? 0) || (MAX <? to)) with true; [|unfold char in *; symmetry; rewrite !orb_true_iff, !Z.ltb_lt; lia]. cbn [update]. do 3 eexists. split; [reflexivity|]. split; [apply SErrRange; tauto|auto].
    + replace ((from <? 0) || (MAX <? from) || (to <? 0) || (MAX <? to)) with true; [|unfold char in *; symmetry; rewrite !orb_true_iff, !Z.ltb_lt; lia]. cbn [update]. do 3 eexists. split; [reflexivity|]. split; [apply SErrRange; tauto|auto].
  - destruct (nth_error st i) as [c|] eqn:Ei; [|do 3 eexists; split; [reflexivity|]; split; [apply SErrNone with (i := i); [eapply sim_none; eauto|auto]|auto]].
    destruct (nth_error st j) as [d|] eqn:Ej; [|do 3 eexists; split; [reflexivity|]; split; [apply SErrNone with (i := j); [eapply sim_none; eauto|auto]|auto]].
    destruct (sim_nth _ _ _ _ H Ei) as (s & Es & l & R & Im & Hm). destruct (sim_nth _ _ _ _ H Ej) as (u & Eu & l2 & R2 & Im2 & Hm2). destruct (immutable_p c) eqn:Ic.
    + unfold char_set_add. rewrite Ic. cbn [update]. do 3 eexists. split; [reflexivity|]. split; [apply SErrFrozen with (i := i) (s := s); auto|auto].
    + destruct (Nat.eqb_spec i j) as [<-|Nij].
      * unfold char_set_add. rewrite Ic. cbn [update]. do 3 eexists. split; [reflexivity|]. split; [apply SUnion with (s := s) (u := u); auto|]. apply sim_rep; auto. exists l. split; auto. split; auto. intros x Hx. cbn [mem]. rewrite Es in Eu. inversion Eu; subst u. rewrite Hm by auto. tauto.
      * destruct (union_ok c d l l2 R R2 Ic) as (c' & l' & E & R' & Im' & H'). rewrite E. cbn [update]. do 3 eexists. split; [reflexivity|]. split; [apply SUnion with (s := s) (u := u); auto|]. apply sim_rep; auto. exists l'. split; auto. split; auto. intros x Hx. cbn [mem]. rewrite H' by (unfold char in Hx; lia). rewrite Hm, Hm2 by auto. tauto.
  - destruct (nth_error st i) as [c|] eqn:Ei; [|do 3 eexists; split; [reflexivity|]; split; [apply SErrNone with (i := i); [eapply sim_none; eauto|reflexivity]|auto]].
    destruct (sim_nth _ _ _ _ H Ei) as (s & Es & l & R & Im & Hm). destruct (immutable_p c) eqn:Ic.
    + unfold complement. rewrite Ic. cbn [update]. do 3 eexists. split; [reflexivity|]. split; [apply SErrFrozen with (i := i) (s := s); auto|auto].
    + destruct (complement_ok c l R Ic) as (c' & l' & E & R' & Im' & H'). rewrite E. cbn [update]. do 3 eexists. split; [reflexivity|]. split; [eapply SCompl; eauto|]. apply sim_rep; auto. exists l'. split; auto. split; auto. intros x Hx. cbn [mem]. rewrite H' by auto. rewrite Hm by auto. tauto.
  - destruct (nth_error st i) as [c|] eqn:Ei; [|do 3 eexists; split; [reflexivity|]; split; [apply SErrNone with (i := i); [eapply sim_none; eauto|reflexivity]|auto]].
    destruct (sim_nth _ _ _ _ H Ei) as (s & Es & l & R & Im & Hm). destruct (copy_ok c l R) as (c' & E & R' & Im' & H'). rewrite E. cbn [create]. do 3 eexists. split; [reflexivity|]. split; [eapply SCopy; eauto|]. apply Forall2_app; auto. constructor; [|constructor]. exists l. split; auto. split; auto. intros x Hx. cbn [mem]. rewrite H' by (unfold char in Hx; lia). auto.
  - destruct (nth_error st i) as [c|] eqn:Ei; [|do 3 eexists; split; [reflexivity|]; split; [apply SErrNone with (i := i); [eapply sim_none; eauto|reflexivity]|auto]].
    destruct (sim_nth _ _ _ _ H Ei) as (s & Es & l & R & Im & Hm). destruct (freeze_ok c l R) as (c' & E & R' & Im' & H'). rewrite E. cbn [create]. do 3 eexists. split; [reflexivity|]. split; [eapply SFreeze; eauto|]. apply Forall2_app; auto. constructor; [|constructor]. exists l. split; auto. split; auto. intros x Hx. cbn [mem]. rewrite H' by (unfold char in Hx; lia). auto.
  - destruct (nth_error st i) as [c|] eqn:Ei; [|do 3 eexists; split; [reflexivity|]; split; [apply SErrNone with (i := i); [eapply sim_none; eauto|reflexivity]|auto]].
    destruct (sim_nth _ _ _ _ H Ei) as (s & Es & l & R & Im & Hm). destruct (freezex_ok c l R) as (c' & E & R' & Im' & H'). rewrite E. cbn [update]. do 3 eexists. split; [reflexivity|]. split; [eapply SFreezeX; eauto|]. apply sim_rep; auto. exists l. split; auto. split; auto. intros x Hx. cbn [mem]. rewrite H' by (unfold char in Hx; lia). auto.
  - destruct (nth_error st i) as [d|] eqn:Ei; [|do 3 eexists; split; [reflexivity|]; split; [apply SErrNone with (i := i); [eapply sim_none; eauto|reflexivity]|auto]].
    destruct (sim_nth _ _ _ _ H Ei) as (s & Es & l & R & Im & Hm). destruct (contains_ok d l c R) as (b & E & Hb). rewrite E. cbn [ask]. do 3 eexists. split; [reflexivity|]. split; [eapply SContains; eauto|auto]. rewrite Hb. split; intros [Hc Hx]; (split; [auto|apply Hm; auto]).
  - destruct (nth_error st i) as [c|] eqn:Ei; [|do 3 eexists; split; [reflexivity|]; split; [apply SErrNone with (i := i); [eapply sim_none; eauto|auto]|auto]].
    destruct (nth_error st j) as [d|] eqn:Ej; [|do 3 eexists; split; [reflexivity|]; split; [apply SErrNone with (i := j); [eapply sim_none; eauto|auto]|auto]].
    destruct (sim_nth _ _ _ _ H Ei) as (s & Es & l & R & Im & Hm). destruct (sim_nth _ _ _ _ H Ej) as (u & Eu & l2 & R2 & Im2 & Hm2).
    destruct (eq_ok c d l l2 R R2) as (b & E & Hb). rewrite E. cbn [ask]. do 3 eexists. split; [reflexivity|]. split; [apply SEqual with (s := s) (u := u); auto|auto]. rewrite Hb. split; intros X x Hx; specialize (X x Hx); rewrite Hm, Hm2 in *; auto.
  - destruct (nth_error st i) as [c|] eqn:Ei; [|do 3 eexists; split; [reflexivity|]; split; [apply SErrNone with (i := i); [eapply sim_none; eauto|auto]|auto]].
    destruct (nth_error st j) as [d|] eqn:Ej; [|do 3 eexists; split; [reflexivity|]; split; [apply SErrNone with (i := j); [eapply sim_none; eauto|auto]|auto]].
    destruct (sim_nth _ _ _ _ H Ei) as (s & Es & l & R & Im & Hm). destruct (sim_nth _ _ _ _ H Ej) as (u & Eu & l2 & R2 & Im2 & Hm2).
    destruct (le_ok c d l l2 R R2) as (b & E & Hb). rewrite E. cbn [ask]. do 3 eexists. split; [reflexivity|]. split; [apply SSubset with (s := s) (u := u); auto|auto]. rewrite Hb. split; intros X x Hx; specialize (X x Hx); rewrite Hm, Hm2 in *; auto.
  - destruct (nth_error st i) as [c|] eqn:Ei; [|do 3 eexists; split; [reflexivity|]; split; [apply SErrNone with (i := i); [eapply sim_none; eauto|reflexivity]|auto]].
    destruct (sim_nth _ _ _ _ H Ei) as (s & Es & l & R & Im & Hm). destruct (ranges_ok c l R) as (r & E & A & I & C). rewrite E. cbn [ask]. do 3 eexists. split; [reflexivity|]. split; [eapply SRanges; eauto|auto].
    + intros x Hx. rewrite C by (unfold char in Hx; lia). auto.
    + unfold inb in I. eapply Forall_impl; [|exact I]. unfold char. cbn. intros; lia.
Qed.
Lemma run_ok : forall ops st ss, Forall2 sim st ss -> exists st' l, csrun st ops = Ok (st', l) /\ spec_run ss ops l.
Proof.
  induction ops as [|o ops IH]; intros st ss H; cbn [csrun].
  - exists st, []. split; auto. constructor.
  - destruct (step_ok o st ss H) as (st' & ss' & a & E & Sp & H'). rewrite E. cbn [bind fst snd]. destruct (IH st' ss' H') as (st2 & l & E2 & Sp2). rewrite E2. cbn [bind fst snd]. exists st2, (a :: l). split; auto. econstructor; eauto.
Qed.
