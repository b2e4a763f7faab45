From Coq Require Import ZArith List Bool Arith Lia Sorting.Sorted.
From Verif Require Import Outcome BitsModel BitsSpec TreeModel TreeApi TreeSpec TreeProofs TreeProofs2 TreeProofs3 TreeProofs4 CharsetModel CharsetSpec CharsetProofs.
Import ListNotations.
Local Open Scope Z_scope.
Ltac Zify.zify_post_hook ::= idtac.
Notation MAX := 0x10ffff.

Fixpoint bnd (b : Z) (l : list (Z * Z)) : Z := match l with [] => b | (_, y) :: r => bnd (y + 2) r end.
Lemma gapped_app : forall p b q, gapped b (p ++ q) <-> gapped b p /\ gapped (bnd b p) q.
Proof. induction p as [|[x y] p IH]; intros b q; cbn [app gapped bnd]; [tauto|]. rewrite IH. tauto. Qed.
Lemma bnd_app : forall p b q, bnd b (p ++ q) = bnd (bnd b p) q.
Proof. induction p as [|[x y] p IH]; intros b q; cbn [app bnd]; auto. Qed.
Lemma bnd_ge : forall l b, gapped b l -> b <= bnd b l.
Proof. induction l as [|[x y] l IH]; intros b H; cbn [gapped bnd] in *; [lia|]. destruct H as (? & ? & H). apply IH in H. lia. Qed.
Lemma gapped_first : forall l b k, gapped b l -> Forall (fun r => k <= fst r) l -> gapped k l.
Proof. intros [|[x y] l] b k H F; cbn [gapped] in *; auto. inversion F; subst. cbn [fst] in *. intuition lia. Qed.
Lemma gapped_le : forall l b k, gapped b l -> k <= b -> gapped k l.
Proof. intros [|[x y] l] b k H F; cbn [gapped] in *; auto. intuition lia. Qed.
Lemma gapped_all : forall l b, gapped b l -> Forall (fun r => b <= fst r <= snd r /\ snd r <= MAX) l.
Proof.
  induction l as [|[x y] l IH]; intros b H; cbn [gapped] in H; constructor.
  - cbn [fst snd]. intuition lia.
  - destruct H as (? & ? & H). apply IH in H. eapply Forall_impl; [|exact H]. cbn. intros; lia.
Qed.
Lemma gapped_length : forall l b, gapped b l -> b <= MAX + 2 -> 2 * Z.of_nat (length l) + b <= MAX + 3.
Proof. induction l as [|[x y] l IH]; intros b H Hb; cbn [gapped length] in *; [lia|]. destruct H as (? & ? & H). apply IH in H; lia. Qed.
Lemma covers_nil : forall c, covers [] c <-> False.
Proof. intros. unfold covers. split; [intros (x & y & [] & _)|tauto]. Qed.
Lemma covers_cons : forall x y l c, covers ((x, y) :: l) c <-> x <= c <= y \/ covers l c.
Proof. intros. unfold covers. split; [intros (u & v & [E|H] & R); [inversion E; subst; auto|right; eauto]|intros [R|(u & v & H & R)]; [exists x, y|exists u, v]; cbn; auto]. Qed.
Lemma covers_app : forall p q c, covers (p ++ q) c <-> covers p c \/ covers q c.
Proof. induction p as [|[x y] p IH]; intros q c; cbn [app]; [rewrite covers_nil; tauto|]. rewrite !covers_cons, IH. tauto. Qed.
Lemma covers_ge : forall l b c, gapped b l -> covers l c -> b <= c <= MAX.
Proof. intros l b c G (x & y & H & R). apply gapped_all in G. rewrite Forall_forall in G. apply G in H. cbn [fst snd] in H. lia. Qed.

Lemma absorb_list_ok : forall post b lo to, gapped b post -> lo <= b -> lo <= to <= MAX ->
  let v := fst (absorb_list to post) in let q := snd (absorb_list to post) in
  to <= v <= MAX /\ gapped (v + 2) q /\ forall c, lo <= c <= v \/ covers q c <-> lo <= c <= to \/ covers post c.
Proof.
  induction post as [|[x y] post IH]; intros b lo to G Lo To; cbn [absorb_list gapped] in *.
  - cbn [fst snd]. split; [lia|]. split; [exact I|]. intros c. tauto.
  - destruct G as (Gx & Gy & G). destruct (Z.ltb_spec (to + 1) x).
    + cbn [fst snd gapped]. split; [lia|]. split; [split; [lia|]; split; [lia|exact G]|]. intros c. tauto.
    + destruct (Z.ltb_spec to y).
      * cbn [fst snd]. split; [lia|]. split; [exact G|]. intros c. rewrite covers_cons. split; intros [Hc|Hc]; auto.
        -- destruct (Z_le_dec c to); [left; lia|right; left; lia].
        -- left; lia.
        -- destruct Hc; [left; lia|auto].
      * destruct (IH (y + 2) lo to G ltac:(lia) To) as (V & Gq & C). split; [exact V|]. split; [exact Gq|]. intros c. rewrite C, covers_cons. split; intros [Hc|Hc]; auto. destruct Hc; [left; lia|auto].
Qed.
Lemma add_list_ok : forall from to pre mid post, 128 <= from <= to -> to <= MAX ->
  gapped 128 (pre ++ (match mid with Some e => [e] | None => [] end) ++ post) ->
  (match mid with
     | Some (x, y) => x <= from /\ (x = from \/ from - 1 <= y) /\ Forall (fun r => from < fst r) post
     | None => Forall (fun r => fst r < from) pre /\ Forall (fun r => from < fst r) post /\ (pre = [] \/ exists p x y, pre = p ++ [(x, y)] /\ y < from - 1)
     end) ->
  gapped 128 (add_list from to pre mid post) /\
  forall c, covers (add_list from to pre mid post) c <-> covers (pre ++ (match mid with Some e => [e] | None => [] end) ++ post) c \/ from <= c <= to.
Proof.
  intros from to pre mid post F T G C. unfold add_list. destruct mid as [[x y]|].
  - destruct C as (C1 & C2 & C3). cbn [app] in *. apply gapped_app in G. destruct G as [Gp G]. cbn [gapped] in G. destruct G as (Gx & Gy & G). destruct (Z.leb_spec to y).
    + split; [apply gapped_app; split; auto; cbn [gapped]; auto|]. intros c. rewrite covers_app, covers_cons. split; [tauto|]. intros [?|?]; auto. right. left. lia.
    + destruct (absorb_list_ok post (y + 2) x to G ltac:(lia) ltac:(lia)) as (V & Gq & Cv). split; [apply gapped_app; split; auto; cbn [gapped]; split; [lia|]; split; [lia|auto]|].
      intros c. rewrite !covers_app, !covers_cons. rewrite Cv. split; intros; destruct (Z_le_dec from c), (Z_le_dec c to), (Z_le_dec x c), (Z_le_dec c y); tauto || (exfalso; lia) || idtac.
  - destruct C as (C1 & C2 & C3). cbn [app] in *. apply gapped_app in G. destruct G as [Gp G].
    assert (B : bnd 128 pre <= from). { destruct C3 as [->|(p & x & y & -> & L)]; [cbn [bnd]; lia|rewrite bnd_app; cbn [bnd]; lia]. }
    assert (G2 : gapped from post). { apply gapped_first with (b := bnd 128 pre); auto. eapply Forall_impl; [|exact C2]. cbn. intros; lia. }
    destruct (absorb_list_ok post from from to G2 ltac:(lia) ltac:(lia)) as (V & Gq & Cv). split; [apply gapped_app; split; auto; cbn [gapped]; split; [lia|]; split; [lia|auto]|].
    intros c. rewrite !covers_app, covers_cons. rewrite Cv. tauto.
Qed.

(** *** complement *)
Fixpoint compl_list (last : Z) (l : list (Z * Z)) : list (Z * Z) * Z :=
  match l with
  | [] => ([], last)
  | (x, y) :: r => let '(q, z) := compl_list y r in ((if last <? x - 1 then (last + 1, x - 1) :: q else q), z)
  end.
Definition compl_all (l : list (Z * Z)) : list (Z * Z) :=
  let '(q, z) := compl_list 127 l in if z <? MAX then q ++ [(z + 1, MAX)] else q.
Lemma compl_list_ok : forall l last, gapped (last + 1) l -> last <= MAX ->
  let q := fst (compl_list last l) in let z := snd (compl_list last l) in
  last <= z <= MAX /\ gapped (last + 1) q /\ bnd (last + 1) q <= z + 1 /\ forall c, last < c -> (covers q c <-> c <= z /\ ~ covers l c) /\ (z < c -> ~ covers l c).
Proof.
  induction l as [|[x y] l IH]; intros last G L; cbn [compl_list gapped] in *.
  - cbn [fst snd gapped bnd]. split; [lia|]. split; [exact I|]. split; [lia|]. intros c Hc. rewrite covers_nil. split; [split; [tauto|lia]|tauto].
  - destruct G as (Gx & Gy & G). destruct (IH y (gapped_le l (y + 2) (y + 1) G ltac:(lia)) Gy) as (Z1 & Gq & Bq & C). destruct (compl_list y l) as [q z]. cbn [fst snd] in *.
    assert (Cv : forall c, covers q c -> y + 1 <= c) by (intros c Hc; apply (covers_ge _ _ _ Gq Hc)).
    assert (Cl : forall c, covers l c -> y + 2 <= c) by (intros c Hc; apply (covers_ge _ _ _ G Hc)).
    split; [lia|]. destruct (Z.ltb_spec last (x - 1)).
    + cbn [gapped bnd]. replace (x - 1 + 2) with (x + 1) by lia. split; [split; [lia|]; split; [lia|]; apply gapped_le with (b := y + 1); auto; lia|]. split.
      * destruct q as [|[u v] q]; cbn [bnd gapped] in *; [lia|]. exact Bq.
      * intros c Hc. rewrite !covers_cons. split.
        -- split.
           ++ intros [Hr|Hr]; [split; [lia|]; intros [?|Hl]; [lia|apply Cl in Hl; lia]|]. pose proof (Cv c Hr). destruct (C c ltac:(lia)) as [C1 _]. apply C1 in Hr. split; [tauto|]. intros [?|?]; [lia|tauto].
           ++ intros [Hz Hn]. destruct (Z_lt_dec c x); [left; lia|]. right. destruct (Z_le_dec c y); [exfalso; apply Hn; left; lia|]. apply C; [lia|]. split; auto.
        -- intros Hz [?|Hl]; [lia|]. apply (proj2 (C c ltac:(lia)) Hz Hl).
    + split; [apply gapped_le with (b := y + 1); auto; lia|]. split.
      * destruct q as [|[u v] q]; cbn [bnd gapped] in *; [lia|]. exact Bq.
      * intros c Hc. rewrite covers_cons. split.
        -- split.
           ++ intros Hr. pose proof (Cv c Hr). destruct (C c ltac:(lia)) as [C1 _]. apply C1 in Hr. split; [tauto|]. intros [?|?]; [lia|tauto].
           ++ intros [Hz Hn]. destruct (Z_le_dec c y); [exfalso; apply Hn; left; lia|]. apply C; [lia|]. split; auto.
        -- intros Hz [?|Hl]; [lia|]. apply (proj2 (C c ltac:(lia)) Hz Hl).
Qed.
Lemma compl_all_ok : forall l, gapped 128 l -> gapped 128 (compl_all l) /\ forall c, 128 <= c <= MAX -> (covers (compl_all l) c <-> ~ covers l c).
Proof.
  intros l G. unfold compl_all. destruct (compl_list_ok l 127 G ltac:(lia)) as (Z1 & Gq & Bq & C). destruct (compl_list 127 l) as [q z]. cbn [fst snd] in *. change (127 + 1) with 128 in *. destruct (Z.ltb_spec z MAX).
  - split.
    + apply gapped_app. split; auto. cbn [gapped]. split; [lia|]. split; [lia|exact I].
    + intros c Hc. rewrite covers_app, covers_cons, covers_nil. destruct (C c ltac:(lia)) as [C1 C2]. rewrite C1. destruct (Z_le_dec c z); [split; intros Hx; [destruct Hx as [Hx|[Hx|[]]]; [tauto|lia]|left; auto]|]. split; intros; [apply C2; lia|right; left; lia].
  - split; auto. intros c Hc. destruct (C c ltac:(lia)) as [C1 C2]. rewrite C1. split; [tauto|]. intros; split; auto. lia.
Qed.

(** *** canonical form *)
Lemma gapped_canonical : forall l1 l2 b, gapped b l1 -> gapped b l2 -> (forall c, b <= c <= MAX -> (covers l1 c <-> covers l2 c)) -> l1 = l2.
Proof.
  induction l1 as [|[x1 y1] l1 IH]; intros [|[x2 y2] l2] b G1 G2 H; auto; cbn [gapped] in G1, G2.
  - exfalso. destruct G2 as (? & ? & _). apply (covers_nil x2). apply (H x2); [lia|]. apply covers_cons. left; lia.
  - exfalso. destruct G1 as (? & ? & _). apply (covers_nil x1). apply (H x1); [lia|]. apply covers_cons. left; lia.
  - destruct G1 as (A1 & B1 & G1), G2 as (A2 & B2 & G2).
    assert (Q1 : forall c, covers l1 c -> y1 + 2 <= c) by (intros c Hc; apply (covers_ge _ _ _ G1 Hc)).
    assert (Q2 : forall c, covers l2 c -> y2 + 2 <= c) by (intros c Hc; apply (covers_ge _ _ _ G2 Hc)).
    assert (H1 : forall c, b <= c <= MAX -> (x1 <= c <= y1 \/ covers l1 c <-> x2 <= c <= y2 \/ covers l2 c)) by (intros c Hc; rewrite <- !covers_cons; auto). clear H.
    assert (x1 = x2).
    { destruct (proj1 (H1 x1 ltac:(lia)) ltac:(left; lia)) as [?|Hc]; [|apply Q2 in Hc]; (destruct (proj2 (H1 x2 ltac:(lia)) ltac:(left; lia)) as [?|Hd]; [|apply Q1 in Hd]); lia. }
    subst x2. assert (y1 = y2).
    { destruct (Z_lt_dec y1 y2); [exfalso; destruct (proj2 (H1 (y1 + 1) ltac:(lia)) ltac:(left; lia)) as [?|Hd]; [|apply Q1 in Hd]; lia|].
      destruct (Z_lt_dec y2 y1); [exfalso; destruct (proj1 (H1 (y2 + 1) ltac:(lia)) ltac:(left; lia)) as [?|Hd]; [|apply Q2 in Hd]; lia|lia]. }
    subst y2. f_equal. apply (IH l2 (y1 + 2)); auto. intros c Hc. specialize (H1 c ltac:(lia)). split; intros Hx; [destruct (proj1 H1 (or_intror Hx))|destruct (proj2 H1 (or_intror Hx))]; auto; lia.
Qed.
(** one range of the list contains [lo, hi] *)
Definition inside (l : list (Z * Z)) (lo hi : Z) : Prop := exists u v, In (u, v) l /\ u <= lo /\ hi <= v.
Lemma inside_iff : forall l b lo hi, gapped b l -> lo <= hi -> (inside l lo hi <-> forall c, lo <= c <= hi -> covers l c).
Proof.
  intros l b lo hi G L. split.
  - intros (u & v & H & ? & ?) c Hc. exists u, v. split; auto. lia.
  - revert b G. induction l as [|[x y] l IH]; intros b G H; cbn [gapped] in G.
    + exfalso. apply (covers_nil lo). apply H. lia.
    + destruct G as (Gx & Gy & G). assert (Q : forall c, covers l c -> y + 2 <= c) by (intros c Hc; apply (covers_ge _ _ _ G Hc)).
      destruct (proj1 (covers_cons x y l lo) (H lo ltac:(lia))) as [Hl|Hl].
      * destruct (Z_le_dec hi y); [exists x, y; cbn; split; auto; lia|]. exfalso. destruct (proj1 (covers_cons x y l (y + 1)) (H (y + 1) ltac:(lia))) as [?|Hq]; [lia|apply Q in Hq; lia].
      * pose proof (Q lo Hl). destruct (IH (y + 2) G) as (u & v & Hi & R); [|exists u, v; cbn; auto]. intros c Hc. destruct (proj1 (covers_cons x y l c) (H c Hc)) as [?|?]; [lia|auto].
Qed.
(** what the closest entries tell *)
Definition near_in (a : list (Z * Z)) (m : option (Z * Z)) (hi : Z) : bool :=
  match m with Some (_, v) => hi <=? v | None => match hd_error (rev a) with Some (_, v) => hi <=? v | None => false end end.
Lemma near_inside : forall a m c lo hi, gapped 128 (a ++ (match m with Some e => [e] | None => [] end) ++ c) ->
  Forall (fun r => fst r < lo) a -> Forall (fun r => lo < fst r) c -> (match m with Some e => fst e = lo | None => True end) -> lo <= hi ->
  (near_in a m hi = true <-> inside (a ++ (match m with Some e => [e] | None => [] end) ++ c) lo hi).
Proof.
  intros a m c lo hi G A C M L. apply gapped_app in G. destruct G as [Ga Gm].
  assert (Nc : forall u v, In (u, v) c -> ~ u <= lo). { intros u v H. rewrite Forall_forall in C. apply C in H. cbn in H. lia. }
  unfold near_in. destruct m as [[x y]|].
  - cbn [fst] in M. subst x. cbn [app gapped] in Gm. rewrite Z.leb_le. split.
    + intros H. exists lo, y. split; [apply in_elt|lia].
    + intros (u & v & H & Hu & Hv). apply in_app_or in H. destruct H as [H|[E|H]]; [|inversion E; subst; lia|exfalso; eapply Nc; eauto].
      exfalso. assert (Hb : v + 2 <= bnd 128 a). { clear - H Ga. revert H Ga. generalize 128. induction a as [|[p q] a IH]; intros z H G; [destruct H|]. cbn [gapped bnd] in *. destruct G as (? & ? & G). destruct H as [E|H]; [inversion E; subst; apply bnd_ge; auto|eauto]. } lia.
  - cbn [app] in *. destruct (hd_error (rev a)) as [[x y]|] eqn:R.
    + destruct (hd_rev_split _ _ R) as (a' & ->). rewrite Z.leb_le. split.
      * intros H. exists x, y. apply Forall_app in A. destruct A as [_ A]. inversion A; subst. cbn [fst] in *. split; [rewrite <- app_assoc; apply in_elt|lia].
      * intros (u & v & H & Hu & Hv). apply in_app_or in H. destruct H as [H|H]; [|exfalso; eapply Nc; eauto]. apply in_app_or in H. destruct H as [H|[E|[]]]; [|inversion E; subst; auto].
        apply gapped_app in Ga. destruct Ga as [Ga Gx]. cbn [gapped] in Gx.
        assert (Hb : v + 2 <= bnd 128 a'). { clear - H Ga. revert H Ga. generalize 128. induction a' as [|[p q] a IH]; intros z H G; [destruct H|]. cbn [gapped bnd] in *. destruct G as (? & ? & G). destruct H as [E|H]; [inversion E; subst; apply bnd_ge; auto|eauto]. } lia.
    + apply hd_rev_none in R. subst a. split; [discriminate|]. intros (u & v & H & Hu & _). exfalso. eapply Nc; eauto.
Qed.

(** *** binary search in the flat vector *)
Lemma flatten_len : forall l, length (flatten l) = (2 * length l)%nat.
Proof. induction l as [|[a b] l IH]; cbn [flatten length]; lia. Qed.
Lemma flatten_even : forall l i, nth_error (flatten l) (i * 2) = option_map fst (nth_error l i).
Proof. induction l as [|[a b] l IH]; intros [|i]; cbn [flatten nth_error Nat.mul Nat.add option_map fst]; auto. Qed.
Lemma flatten_odd : forall l i, nth_error (flatten l) (i * 2 + 1) = option_map snd (nth_error l i).
Proof. induction l as [|[a b] l IH]; intros [|i]; cbn [flatten nth_error Nat.mul Nat.add option_map snd]; auto. Qed.
Lemma pairs_flatten : forall l, pairs (flatten l) = Ok l.
Proof. induction l as [|[a b] l IH]; cbn [flatten pairs]; auto. rewrite IH. reflexivity. Qed.
Lemma gapped_nth : forall l b i j p q, gapped b l -> (i < j)%nat -> nth_error l i = Some p -> nth_error l j = Some q -> fst p < fst q.
Proof.
  induction l as [|[x y] l IH]; intros b [|i] [|j] p q G Hij Hp Hq; cbn [nth_error] in *; try discriminate; try lia; cbn [gapped] in G; destruct G as (Gx & _ & G).
  - inversion Hp; subst. apply nth_error_In in Hq. apply gapped_all in G. rewrite Forall_forall in G. apply G in Hq. cbn [fst]. lia.
  - apply (IH (y + 2) i j); auto. lia.
Qed.
Definition key_at (l : list (Z * Z)) (i : nat) : Z := match nth_error l i with Some r => fst r | None => 0 end.
Lemma key_at_lt : forall l b i j, gapped b l -> (i < j < length l)%nat -> key_at l i < key_at l j.
Proof.
  intros l b i j G H. unfold key_at. destruct (nth_error l i) eqn:E1; [|apply nth_error_None in E1; lia]. destruct (nth_error l j) eqn:E2; [|apply nth_error_None in E2; lia]. apply (gapped_nth l b i j); auto. lia.
Qed.
Definition bs_spec (l : list (Z * Z)) (key : Z) (r : bsr) : Prop :=
  match r with
  | Found k => exists i, k = (i * 2)%nat /\ (i < length l)%nat /\ key_at l i = key
  | NotFound (Some k) => exists i, k = (i * 2)%nat /\ (i < length l)%nat /\ key_at l i < key /\ forall j, (i < j < length l)%nat -> key < key_at l j
  | NotFound None => forall j, (j < length l)%nat -> key < key_at l j
  end.
Lemma half_lt : forall n, (n / 2 <= n)%nat. Proof. intros. apply Nat.div_le_upper_bound; lia. Qed.
Lemma bsearch_loop_ok : forall fuel l b key lo hi, gapped b l -> (lo <= hi <= length l)%nat -> (hi - lo < fuel)%nat ->
  (lo = 0%nat \/ (lo < length l)%nat /\ key_at l lo < key) -> (hi = length l \/ key < key_at l hi) ->
  exists r, bsearch_loop fuel (flatten l) key lo hi (lo + (hi - lo) / 2)%nat = Ok r /\ bs_spec l key r.
Proof.
  induction fuel as [|f IH]; intros l b key lo hi G R F Hlo Hhi; [lia|]. cbn [bsearch_loop].
  assert (Above : forall j, (hi <= j < length l)%nat -> key < key_at l j).
  { intros j Hj. destruct Hhi as [Hn|Hk]; [lia|]. destruct (Nat.eq_dec j hi) as [->|]; auto. pose proof (key_at_lt l b hi j G ltac:(lia)). lia. }
  destruct (Nat.ltb_spec lo hi).
  - set (k := (lo + (hi - lo) / 2)%nat). assert (Hk : (lo <= k < hi)%nat). { unfold k. assert ((hi - lo) / 2 < hi - lo)%nat by (apply Nat.div_lt; lia). lia. }
    rewrite flatten_even. destruct (nth_error l k) as [[x y]|] eqn:E; [|apply nth_error_None in E; lia]. cbn [option_map of_opt bind fst].
    assert (Kx : key_at l k = x) by (unfold key_at; rewrite E; reflexivity).
    destruct (Z.eqb_spec x key); [exists (Found (k * 2)); split; auto; exists k; split; [auto|split; [lia|lia]]|].
    destruct (Z.ltb_spec x key).
    + destruct (Nat.eqb_spec k (k + (hi - k) / 2)) as [Eb|Eb].
      * assert (hi = S k). { destruct (Nat.eq_dec hi (S k)); auto. exfalso. assert (1 <= (hi - k) / 2)%nat by (apply Nat.div_le_lower_bound; lia). lia. }
        destruct (Nat.eqb_spec k hi); [lia|]. eexists. split; [reflexivity|]. cbn [bs_spec]. exists k. split; auto. split; [lia|]. split; [lia|]. intros j Hj. apply Above. lia.
      * assert (k <> lo) by (intros Ek; apply Eb; unfold k in *; rewrite Ek at 2; rewrite Ek; lia).
        apply (IH l b); auto; lia.
    + apply (IH l b); auto; lia.
  - assert (lo = hi) by lia. subst hi. rewrite Nat.eqb_refl. eexists. split; [reflexivity|]. cbn [bs_spec]. intros j Hj. destruct Hlo as [->|[H1 H2]]; [apply Above; lia|]. specialize (Above lo ltac:(lia)). lia.
Qed.
Lemma bsearch_ok : forall l b key, gapped b l -> exists r, bsearch (flatten l) key = Ok r /\ bs_spec l key r.
Proof.
  intros l b key G. unfold bsearch. rewrite flatten_len. replace (2 * length l / 2)%nat with (length l) by (symmetry; rewrite Nat.mul_comm; apply Nat.div_mul; lia).
  pose proof (bsearch_loop_ok (S (S (length l))) l b key 0 (length l) G) as H. rewrite Nat.sub_0_r in H. apply H; auto; lia.
Qed.
