(** Myers' algorithm finds a longest pairing. *)
From Coq Require Import List Bool Arith ZArith Lia.
From Verif Require Import LcModel LcSpec.
Import ListNotations.
Local Open Scope Z_scope.

Section L.
Context {A : Type}.
Variable eq : A -> A -> bool.
Variables a b : list A.
Notation N := (Z.of_nat (length a)).
Notation M := (Z.of_nat (length b)).
Notation MN := (N + M).
Notation kl := (kloop eq a b).
Definition hit (x y : Z) : Prop := exists e e', nthZ a x = Some e /\ nthZ b y = Some e' /\ eq e e' = true.
Lemma nthZ_some (l : list A) x : 0 <= x < Z.of_nat (length l) -> exists e, nthZ l x = Some e.
Proof.
  intro H. unfold nthZ. destruct (Z.ltb_spec x 0); [lia|]. destruct (nth_error l (Z.to_nat x)) eqn:E; [eauto|]. apply nth_error_None in E. lia.
Qed.
Lemma nthZ_nth (l : list A) x e : nthZ l x = Some e -> 0 <= x < Z.of_nat (length l) /\ nth_error l (Z.to_nat x) = Some e.
Proof.
  unfold nthZ. destruct (Z.ltb_spec x 0); [discriminate|]. intro E. split; auto.
  assert (L : (Z.to_nat x < length l)%nat) by (apply nth_error_Some; congruence). lia.
Qed.
(** chains: pairings in reverse, below a point *)
Fixpoint below (x y : Z) (r : list (A * Z * Z)) : Prop :=
  match r with [] => True | (e, u, v) :: r' => u < x /\ v < y /\ nthZ a u = Some e /\ (exists e', nthZ b v = Some e' /\ eq e e' = true) /\ below u v r' end.
Lemma below_le x y x' y' r : x <= x' -> y <= y' -> below x y r -> below x' y' r.
Proof. destruct r as [|((e & u) & v) r]; cbn; auto. intros ? ? (P & Q & R). repeat split; try tauto; lia. Qed.
Definition genuine (v : ent A) : Prop := el v = Z.of_nat (length (er v)) /\ exists x y, below x y (er v).
(** points that paths with d edits reach inside the grid *)
Inductive greach : Z -> Z -> Z -> Prop :=
| gr_0 : greach 0 0 0
| gr_hit d x y : greach d x y -> hit x y -> greach d (x + 1) (y + 1)
| gr_right d x y : greach d x y -> x < N -> greach (d + 1) (x + 1) y
| gr_down d x y : greach d x y -> y < M -> greach (d + 1) x (y + 1).
Lemma hit_in x y : hit x y -> 0 <= x < N /\ 0 <= y < M.
Proof. intros (e & e' & E & E' & _). apply nthZ_nth in E, E'. tauto. Qed.
Lemma greach_bounds d x y : greach d x y -> 0 <= d /\ 0 <= x <= N /\ 0 <= y <= M /\ - d <= x - y <= d /\ exists q, x - y = d + 2 * q.
Proof.
  induction 1 as [|d x y G IH H|d x y G IH H|d x y G IH H].
  - repeat split; try lia. exists 0. lia.
  - apply hit_in in H. destruct IH as (? & ? & ? & ? & q & Q). repeat split; try lia. exists q. lia.
  - destruct IH as (? & ? & ? & ? & q & Q). repeat split; try lia. exists q. lia.
  - destruct IH as (? & ? & ? & ? & q & Q). repeat split; try lia. exists (q - 1). lia.
Qed.
(** the furthest points on diagonal j *)
Record E (d j : Z) (v : ent A) : Prop := {
  e_x : 0 <= ex v; e_y : 0 <= ex v - j; e_l : ex v + (ex v - j) = d + 2 * el v;
  e_r : below (ex v) (ex v - j) (er v); e_len : el v = Z.of_nat (length (er v));
  e_far : forall x y, greach d x y -> x - y = j -> x <= ex v }.
Lemma xyloop_spec d k : forall fuel x l r, (0 < fuel)%nat -> 0 <= x -> 0 <= x - k -> N - x < Z.of_nat fuel ->
  x + (x - k) = d + 2 * l -> below x (x - k) r -> l = Z.of_nat (length r) ->
  exists x' l' r', xyloop eq a b fuel x (x - k) l r = Some (x', x' - k, l', r') /\ x <= x' /\
    x' + (x' - k) = d + 2 * l' /\ below x' (x' - k) r' /\ l' = Z.of_nat (length r') /\
    ~ hit x' (x' - k).
Proof.
  induction fuel as [|f IH]; intros x l r FP X Y F L B LR; [lia|]. cbn [xyloop].
  destruct (Z.leb_spec N x) as [NX|NX].
  { exists x, l, r. repeat split; auto; try lia. intro H. apply hit_in in H. lia. }
  destruct (Z.leb_spec M (x - k)) as [MY|MY].
  { exists x, l, r. repeat split; auto; try lia. intro H. apply hit_in in H. lia. }
  destruct (nthZ_some a x) as (e & EE); [lia|]. destruct (nthZ_some b (x - k)) as (e' & EE'); [lia|]. rewrite EE, EE'.
  destruct (eq e e') eqn:Q.
  - replace (x - k + 1) with (x + 1 - k) by lia.
    destruct (IH (x + 1) (l + 1) ((e, x, x - k) :: r)) as (x' & l' & r' & P1 & P2 & P3 & P4 & P5 & P6); try lia.
    + cbn [below]. repeat split; auto; try lia. eauto.
    + cbn [length]. lia.
    + exists x', l', r'. repeat split; auto; lia.
  - exists x, l, r. repeat split; auto; try lia. intros (f1 & f2 & F1 & F2 & F3). congruence.
Qed.
Lemma far_spec d k x0 xr : x0 <= xr -> ~ hit xr (xr - k) ->
  (d = 0 -> 0 <= x0) -> (forall x y, greach (d - 1) x y -> x - y = k - 1 -> x + 1 <= x0) ->
  (forall x y, greach (d - 1) x y -> x - y = k + 1 -> x <= x0) ->
  forall x y, greach d x y -> x - y = k -> x <= xr.
Proof.
  intros LE NH P0 P1 P2 x y G. remember d as d' eqn:ED in G. revert ED.
  induction G as [|d1 x y G IH H|d1 x y G IH H|d1 x y G IH H]; intros ED K.
  - specialize (P0 (eq_sym ED)). lia.
  - specialize (IH ED ltac:(lia)). destruct (Z.eq_dec x xr) as [->|NE]; [|lia]. exfalso. apply NH. replace (xr - k) with y by lia. exact H.
  - replace d1 with (d - 1) in G by lia. specialize (P1 _ _ G ltac:(lia)). lia.
  - replace d1 with (d - 1) in G by lia. specialize (P2 _ _ G ltac:(lia)). lia.
Qed.
Record I (d k : Z) (V : vec) : Prop := {
  i_new : forall j, - d <= j < k -> (exists q, j = d + 2 * q) -> E d j (V j);
  i_old : forall j, - (d - 1) <= j <= d - 1 -> (exists q, j = d - 1 + 2 * q) -> E (d - 1) j (V j);
  i_0 : d = 0 -> V 1 = {| ex := 0; el := 0; er := [] |};
  i_all : forall i, genuine (V i) }.
Lemma from_spec d k V : I d k V -> 0 <= d -> d <= MN -> 1 <= MN -> - d <= k <= d -> (exists q, k = d + 2 * q) ->
  exists x l r, from a b V d k = Some (x, l, r) /\ 0 <= x /\ 0 <= x - k /\ x + (x - k) = d + 2 * l /\ below x (x - k) r /\ l = Z.of_nat (length r) /\
    (d = 0 -> 0 <= x) /\ (forall x1 y, greach (d - 1) x1 y -> x1 - y = k - 1 -> x1 + 1 <= x) /\
    (forall x1 y, greach (d - 1) x1 y -> x1 - y = k + 1 -> x1 <= x).
Proof.
  intros [I1 I2 I3 I4] D DM MN1 K (q & Q). unfold from, vget.
  assert (UP : k < d \/ d = 0 -> exists x l r, V (k + 1) = {| ex := x; el := l; er := r |} /\ 0 <= x /\ 0 <= x - k /\ x + (x - k) = d + 2 * l /\
    below x (x - k) r /\ l = Z.of_nat (length r) /\ (forall x1 y, greach (d - 1) x1 y -> x1 - y = k + 1 -> x1 <= x)).
  { intro C. destruct (Z.eq_dec d 0) as [->|ND].
    - assert (k = 0) as -> by lia. exists 0, 0, []. change (0 + 1) with 1. rewrite (I3 eq_refl). cbn. repeat split; auto; try lia.
      intros x1 y G. apply greach_bounds in G. lia.
    - destruct (I2 (k + 1) ltac:(lia) ltac:(exists (q + 1); lia)) as [B1 B2 B3 B4 B5 B6]. destruct (V (k + 1)) as [x l r]. cbn in *.
      exists x, l, r. repeat split; auto; try lia. eapply below_le; [| |exact B4]; lia. }
  assert (LEFT : - d < k -> exists x l r, V (k - 1) = {| ex := x; el := l; er := r |} /\ 0 <= x + 1 /\ 0 <= x + 1 - k /\ x + 1 + (x + 1 - k) = d + 2 * l /\
    below (x + 1) (x + 1 - k) r /\ l = Z.of_nat (length r) /\ (forall x1 y, greach (d - 1) x1 y -> x1 - y = k - 1 -> x1 + 1 <= x + 1)).
  { intro C. destruct (I2 (k - 1) ltac:(lia) ltac:(exists q; lia)) as [B1 B2 B3 B4 B5 B6]. destruct (V (k - 1)) as [x l r]. cbn in *.
    exists x, l, r. repeat split; auto; try lia; [eapply below_le; [| |exact B4]; lia|]. intros x1 y G J. specialize (B6 _ _ G J). lia. }
  assert (IB1 : k < d \/ d = 0 -> (- MN <=? k + 1) && (k + 1 <=? MN) = true) by (intro; apply andb_true_iff; split; apply Z.leb_le; lia).
  assert (IB2 : - d < k -> (- MN <=? k - 1) && (k - 1 <=? MN) = true) by (intro; apply andb_true_iff; split; apply Z.leb_le; lia).
  destruct (Z.eqb_spec k (- d)) as [KD|KD]; [|destruct (Z.eqb_spec k d) as [KD2|KD2]].
  - destruct UP as (x & l & r & EV & U1 & U2 & U3 & U4 & U5 & U6); [lia|]. rewrite IB1 by lia. rewrite EV. cbn [ex el er]. exists x, l, r.
    repeat split; auto; try lia. intros x1 y G J. apply greach_bounds in G. lia.
  - destruct LEFT as (x & l & r & EV & U1 & U2 & U3 & U4 & U5 & U6); [lia|]. rewrite IB2 by lia. rewrite EV. cbn [ex el er]. exists (x + 1), l, r.
    repeat split; auto; try lia. intros x1 y G J. apply greach_bounds in G. lia.
  - destruct UP as (x & l & r & EV & U1 & U2 & U3 & U4 & U5 & U6); [lia|]. destruct LEFT as (x' & l' & r' & EV' & U1' & U2' & U3' & U4' & U5' & U6'); [lia|].
    rewrite IB1, IB2 by lia. rewrite EV, EV'. cbn [ex el er]. destruct (Z.ltb_spec x' x).
    + exists x, l, r. repeat split; auto; try lia. intros x1 y G J. specialize (U6' _ _ G J). lia.
    + exists (x' + 1), l', r'. repeat split; auto; try lia. intros x1 y G J. specialize (U6 _ _ G J). lia.
Qed.
Definition done (v : ent A) j : Prop := N <= ex v /\ M <= ex v - j.
Lemma kloop_spec d : 0 <= d -> d <= MN -> 1 <= MN -> forall fuel k V, I d k V -> - d <= k -> (exists q, k = d + 2 * q) -> k <= d + 2 -> d + 2 - k < 2 * Z.of_nat fuel ->
  (forall j, - d <= j < k -> (exists q, j = d + 2 * q) -> ~ done (V j) j) ->
  exists f V', kl fuel d k V = Some (f, V') /\ (forall i, genuine (V' i)) /\
    if f then exists j, - d <= j <= d /\ E d j (V' j) /\ done (V' j) j
    else I (d + 1) (- (d + 1)) V' /\ (forall j, - d <= j <= d -> (exists q, j = d + 2 * q) -> E d j (V' j) /\ ~ done (V' j) j).
Proof.
  intros D DM MN1. induction fuel as [|f IH]; intros k V IV KD (q & Q) KU F ND.
  { exfalso. lia. }
  cbn [kloop]. destruct (Z.ltb_spec d k) as [C|C].
  { exists false, V. split; auto. split; [apply (i_all _ _ _ IV)|]. split.
    - split.
      + intros j J. lia.
      + intros j J (p & P). replace (d + 1 - 1) with d in * by lia. apply (i_new _ _ _ IV); [lia|]. exists p. lia.
      + intro Z0. lia.
      + apply (i_all _ _ _ IV).
    - intros j J P. split; [apply (i_new _ _ _ IV)|apply ND]; auto; lia. }
  destruct (from_spec d k V IV D DM MN1 ltac:(lia) ltac:(eauto)) as (x0 & l0 & r0 & FE & X0 & Y0 & L0 & B0 & N0 & P0 & P1 & P2). rewrite FE.
  destruct (xyloop_spec d k (S (length a)) x0 l0 r0) as (x & l & r & XE & LE & L1 & B1 & N1 & NH); auto; try lia. rewrite XE.
  unfold vset. replace ((- MN <=? k) && (k <=? MN)) with true by (symmetry; apply andb_true_iff; split; apply Z.leb_le; lia).
  set (e := {| ex := x; el := l; er := r |}).
  assert (EE : E d k e).
  { split; cbn; auto; try lia. intros x1 y1 G J. eapply (far_spec d k x0 x); eauto. }
  assert (GE : forall i, genuine (upd V k e i)).
  { intro i. unfold upd. destruct (Z.eqb_spec i k); [|apply (i_all _ _ _ IV)]. split; cbn; eauto. }
  destruct ((N <=? x) && (M <=? x - k)) eqn:FIN.
  - apply andb_true_iff in FIN. destruct FIN as (F1 & F2). apply Z.leb_le in F1, F2. exists true, (upd V k e). split; auto. split; auto.
    exists k. unfold upd. rewrite Z.eqb_refl. split; [lia|]. split; auto. split; cbn; lia.
  - assert (ND1 : ~ done e k).
    { intros (F1 & F2). cbn in F1, F2. apply andb_false_iff in FIN. destruct FIN as [FIN|FIN]; apply Z.leb_gt in FIN; lia. }
    assert (UE : forall j, j <> k -> upd V k e j = V j) by (intros j J; unfold upd; destruct (Z.eqb_spec j k); congruence).
    assert (UK : upd V k e k = e) by (unfold upd; now rewrite Z.eqb_refl).
    apply IH.
    + split.
      * intros j J (p & P). destruct (Z.eq_dec j k) as [->|NE]; [rewrite UK; exact EE|]. rewrite UE by auto. apply (i_new _ _ _ IV); [lia|eauto].
      * intros j J (p & P). rewrite UE by lia. apply (i_old _ _ _ IV); eauto.
      * intro Z0. rewrite UE by lia. apply (i_0 _ _ _ IV). auto.
      * exact GE.
    + lia.
    + exists (q + 1). lia.
    + lia.
    + lia.
    + intros j J (p & P). destruct (Z.eq_dec j k) as [->|NE]; [rewrite UK; exact ND1|]. rewrite UE by auto. apply ND; [lia|eauto].
Qed.
(** finish takes the longest *)
Lemma finish_fold (V : @vec A) : (forall i, genuine (V i)) -> forall l m r, m = Z.of_nat (length r) -> (exists x y, below x y r) ->
  exists m' r', fold_left (fun '(m, r) i => if m <? el (V i) then (el (V i), er (V i)) else (m, r)) l (m, r) = (m', r') /\
    m' = Z.of_nat (length r') /\ (exists x y, below x y r') /\ m <= m' /\ forall i, In i l -> el (V i) <= m'.
Proof.
  intro G. induction l as [|i l IH]; intros m r L B; cbn [fold_left].
  - exists m, r. repeat split; auto; try lia. intros i [].
  - destruct (G i) as (G1 & G2). destruct (Z.ltb_spec m (el (V i))).
    + destruct (IH (el (V i)) (er (V i)) G1 G2) as (m' & r' & P1 & P2 & P3 & P4 & P5). exists m', r'. repeat split; auto; try lia.
      intros j [<-|J]; auto.
    + destruct (IH m r L B) as (m' & r' & P1 & P2 & P3 & P4 & P5). exists m', r'. repeat split; auto; try lia.
      intros j [<-|J]; auto. lia.
Qed.
Lemma increasing_app (l : list (A * Z * Z)) : forall i j e x y, increasing i j l -> (forall e' u v, In (e', u, v) l -> u < x /\ v < y) -> i <= x -> j <= y -> increasing i j (l ++ [(e, x, y)]).
Proof.
  induction l as [|((e0 & u) & v) l IH]; intros i j e x y IN BD IX JY; cbn in *; [auto|].
  destruct IN as (U & W & IN). repeat split; auto. destruct (BD e0 u v (or_introl eq_refl)). apply IH; auto; try lia. intros e' u' v' J. apply (BD e'). auto.
Qed.
Lemma below_in r : forall x y, below x y r -> forall e u v, In (e, u, v) r -> u < x /\ v < y /\ nthZ a u = Some e /\ exists e', nthZ b v = Some e' /\ eq e e' = true.
Proof.
  induction r as [|((e0 & u0) & v0) r IH]; intros x y B e u v J; [destruct J|]. cbn in B. destruct B as (B1 & B2 & B3 & B4 & B5).
  destruct J as [J|J]; [inversion J; subst; auto|]. destruct (IH _ _ B5 _ _ _ J) as (C1 & C2 & C3). repeat split; auto; try lia; apply C3.
Qed.
Lemma below_pairing r : (exists x y, below x y r) -> pairing eq a b (rev r).
Proof.
  intros (x & y & B). split.
  - revert x y B. induction r as [|((e & u) & v) r IH]; intros x y B; [exact Logic.I|]. cbn [rev]. cbn in B. destruct B as (B1 & B2 & B3 & (e' & B4 & _) & B5).
    apply nthZ_nth in B3, B4. apply increasing_app; try lia; [eapply IH; eauto|]. intros e1 u1 v1 J. apply in_rev in J. pose proof (below_in _ _ _ B5 _ _ _ J). lia.
  - intros e u v J. apply in_rev in J. destruct (below_in _ _ _ B _ _ _ J) as (_ & _ & C1 & e' & C2 & C3).
    apply nthZ_nth in C1, C2. split; [tauto|]. exists e'. tauto.
Qed.
(** a pairing is a path *)
Lemma go_right d x y : forall n, greach d x y -> x + Z.of_nat n <= N -> greach (d + Z.of_nat n) (x + Z.of_nat n) y.
Proof.
  induction n as [|n IH]; intros G L; [now rewrite !Z.add_0_r|]. replace (d + Z.of_nat (S n)) with (d + Z.of_nat n + 1) by lia.
  replace (x + Z.of_nat (S n)) with (x + Z.of_nat n + 1) by lia. apply gr_right; [apply IH; auto; lia|lia].
Qed.
Lemma go_down d x y : forall n, greach d x y -> y + Z.of_nat n <= M -> greach (d + Z.of_nat n) x (y + Z.of_nat n).
Proof.
  induction n as [|n IH]; intros G L; [now rewrite !Z.add_0_r|]. replace (d + Z.of_nat (S n)) with (d + Z.of_nat n + 1) by lia.
  replace (y + Z.of_nat (S n)) with (y + Z.of_nat n + 1) by lia. apply gr_down; [apply IH; auto; lia|lia].
Qed.
Lemma go d x y x' y' : greach d x y -> x <= x' <= N -> y <= y' <= M -> greach (d + (x' - x) + (y' - y)) x' y'.
Proof.
  intros G X Y. pose proof (go_right _ _ _ (Z.to_nat (x' - x)) G ltac:(lia)) as G1. rewrite Z2Nat.id in G1 by lia.
  pose proof (go_down _ _ _ (Z.to_nat (y' - y)) G1 ltac:(lia)) as G2. rewrite Z2Nat.id in G2 by lia.
  replace (x + (x' - x)) with x' in G2 by lia. replace (y + (y' - y)) with y' in G2 by lia. exact G2.
Qed.
Lemma greach_pairing (l : list (A * Z * Z)) : forall d x y, greach d x y -> increasing x y l ->
  (forall e u v, In (e, u, v) l -> hit u v) -> greach (d + (N - x) + (M - y) - 2 * Z.of_nat (length l)) N M.
Proof.
  induction l as [|((e & u) & v) l IH]; intros d x y G IN H.
  - cbn [length]. replace (d + (N - x) + (M - y) - 2 * Z.of_nat 0) with (d + (N - x) + (M - y)) by lia. pose proof (greach_bounds _ _ _ G). apply go; auto; lia.
  - cbn in IN. destruct IN as (U & W & IN). assert (HH : hit u v) by (apply (H e); now left). pose proof (hit_in _ _ HH).
    assert (G1 : greach (d + (u - x) + (v - y)) u v) by (apply go; auto; lia). apply gr_hit in G1; auto.
    specialize (IH _ _ _ G1 IN ltac:(intros e' u' v' J; apply (H e'); now right)). cbn [length].
    replace (d + (N - x) + (M - y) - 2 * Z.of_nat (S (length l))) with (d + (u - x) + (v - y) + (N - (u + 1)) + (M - (v + 1)) - 2 * Z.of_nat (length l)) by lia. exact IH.
Qed.
Lemma pairing_hit l e u v : pairing eq a b l -> In (e, u, v) l -> hit u v.
Proof.
  intros (IN & H) J. destruct (H _ _ _ J) as (P1 & e' & P2 & P3). exists e, e'. unfold nthZ.
  assert (GE : forall (l : list (A * Z * Z)) i j, increasing i j l -> In (e, u, v) l -> i <= u /\ j <= v).
  { clear. induction l as [|((e0 & u0) & v0) l IH]; intros i j X J; [destruct J|]. cbn in X. destruct X as (X1 & X2 & X3).
    destruct J as [J|J]; [inversion J; subst; auto|]. specialize (IH _ _ X3 J). lia. }
  destruct (GE _ _ _ IN J). destruct (Z.ltb_spec u 0); [lia|]. destruct (Z.ltb_spec v 0); [lia|]. auto.
Qed.
Lemma dloop_spec : 1 <= MN -> forall fuel d V, 0 <= d -> I d (- d) V -> MN - d + 1 < Z.of_nat fuel -> (forall l, pairing eq a b l -> d <= MN - 2 * Z.of_nat (length l)) ->
  exists m r, dloop eq a b fuel d V = Some (m, r) /\ m = Z.of_nat (length r) /\ pairing eq a b r /\ forall l, pairing eq a b l -> (length l <= length r)%nat.
Proof.
  intro MN1. induction fuel as [|f IH]; intros d V D IV F C.
  - exfalso. specialize (C [] ltac:(split; [exact Logic.I|intros e x y []])). cbn in C. lia.
  - assert (DM : d <= MN) by (specialize (C [] ltac:(split; [exact Logic.I|intros e x y []])); cbn in C; lia).
    cbn [dloop]. destruct (Z.ltb_spec MN d); [lia|].
    destruct (kloop_spec d D DM MN1 (S (S (Z.to_nat d))) (- d) V IV) as (fin & V' & KE & GA & P); try lia.
    { exists (- d). lia. }
    rewrite KE. destruct fin.
    + destruct P as (j & J & EJ & (F1 & F2)). unfold finish.
      destruct (finish_fold V' GA (map (fun n => Z.of_nat n - MN) (seq 0 (Z.to_nat (2 * MN + 1)))) 0 [] eq_refl) as (m & r & P1 & P2 & P3 & P4 & P5).
      { exists 0, 0. exact Logic.I. }
      rewrite P1. exists m, (rev r). split; auto. rewrite rev_length. split; auto. split; [now apply below_pairing|].
      intros l PL. specialize (C l PL). destruct EJ as [_ _ EL _ _ _].
      assert (el (V' j) <= m); [|lia]. apply P5. apply in_map_iff. exists (Z.to_nat (j + MN)). split; [lia|]. apply in_seq. lia.
    + destruct P as (I' & P). apply IH; auto; try lia.
      intros l PL. specialize (C l PL). destruct (Z.eq_dec d (MN - 2 * Z.of_nat (length l))) as [EQ|NE]; [|lia]. exfalso.
      assert (G : greach d N M).
      { rewrite EQ. replace (MN - 2 * Z.of_nat (length l)) with (0 + (N - 0) + (M - 0) - 2 * Z.of_nat (length l)) by lia.
        apply greach_pairing; [constructor|apply PL|]. intros e u v J. eapply pairing_hit; eauto. }
      pose proof (greach_bounds _ _ _ G) as (_ & _ & _ & BD & (q & Q)).
      destruct (P (N - M) ltac:(lia)) as (EJ & NDn); [exists q; lia|]. apply NDn. pose proof (e_far _ _ _ EJ _ _ G eq_refl). split; lia.
Qed.
Lemma lwp_spec : exists m r, lcs_with_positions eq a b = Some (m, r) /\ m = Z.of_nat (length r) /\ pairing eq a b r /\
  forall l, pairing eq a b l -> (length l <= length r)%nat.
Proof.
  unfold lcs_with_positions. destruct (Z.eqb_spec MN 0) as [Z0|Z0].
  - exists 0, []. split; auto. split; auto. split; [split; [exact Logic.I|intros e x y []]|]. intros l PL.
    destruct l as [|((e & u) & v) l]; auto. exfalso. assert (H : hit u v) by (eapply pairing_hit; [exact PL|now left]). apply hit_in in H. lia.
  - apply dloop_spec; try lia.
    + split; try lia; auto. intro i. split; cbn; auto. exists 0, 0. exact Logic.I.
    + intros l PL. assert (G : greach (0 + (N - 0) + (M - 0) - 2 * Z.of_nat (length l)) N M).
      { apply greach_pairing; [constructor|apply PL|]. intros e u v J. eapply pairing_hit; eauto. }
      apply greach_bounds in G. lia.
Qed.
End L.
