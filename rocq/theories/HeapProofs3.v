(** Min-max heaps: the exported operations. *)
From Coq Require Import List Bool Arith Permutation Lia ZArith ZifyNat.
From Verif Require Import Outcome HeapModel HeapSpec HeapProofs HeapProofs2.
Import ListNotations.
Local Open Scope nat_scope.
Ltac Zify.zify_post_hook ::= Z.to_euclidean_division_equations.

Section HeapP3.
Context {A : Type} (lt : A -> A -> bool) (filler : A) (WO : weak_order lt).
Notation val := (val filler).
Notation vals := (vals filler).

Definition frame (h h' : heap A) : Prop := cap h' = cap h /\ limit (storage h') = limit (storage h).

Lemma H_le v n m : H lt v n -> m <= n -> H lt v m.
Proof. intros [H1 H2] L; split; intros j Hj; [apply H1|apply H2]; lia. Qed.
Lemma in_vals s n x : In x (vals s n) <-> exists i, 1 <= i <= n /\ val s i = x.
Proof.
  unfold HeapProofs2.vals; rewrite in_map_iff; split.
  - intros (i & E & Hi); apply in_seq in Hi; exists i; split; [lia|exact E].
  - intros (i & Hi & E); exists i; split; [exact E|]; apply in_seq; lia.
Qed.
Lemma rearr_vals N s s' : rearr filler N s s' -> Permutation (vals s' N) (vals s N).
Proof. intros R; apply R. Qed.

Lemma push_ok h l x : sized h -> holds lt h l -> has_room h l ->
  exists h', push lt h x = Ok h' /\ holds lt h' (x :: l) /\ frame h h'.
Proof.
  intros Sz Hh Room. apply (holds_iff lt filler) in Hh. destruct Hh as (Nx & G & Hh & Pm).
  unfold push. rewrite Nx, Sz. unfold cap_of, has_room in *.
  assert (Full : match match limit (storage h) with Some n => Finite n | None => Infinite end with
                 | Finite c => Ok (c <=? S (length l) - 1) | Infinite => Ok false | Unbound => Err end = Ok false).
  { destruct (limit (storage h)) as [n|]; [|reflexivity]. f_equal; apply Nat.leb_gt; lia. }
  rewrite Full; cbn [bind].
  assert (L : in_limit (storage h) (S (length l)) = true).
  { unfold in_limit; apply andb_true_intro; split; [apply Nat.leb_le; lia|].
    destruct (limit (storage h)); [apply Nat.leb_le; lia|reflexivity]. }
  rewrite sset_at by exact L. cbn [bind].
  set (s1 := set_at (storage h) (S (length l)) x).
  assert (G1 : good s1 (S (length l))) by (apply good_set_at_S; assumption).
  assert (V1 : forall j, j <> S (length l) -> val s1 j = val (storage h) j).
  { intros j Hj; unfold s1; rewrite val_set_at; unfold upd. destruct (Nat.eqb_spec j (S (length l))); [tauto|reflexivity]. }
  assert (P1 : Permutation (vals s1 (S (length l))) (x :: l)).
  { rewrite vals_S. unfold s1 at 2; rewrite val_set_at; unfold upd; rewrite Nat.eqb_refl.
    rewrite <- Permutation_cons_append. apply perm_skip.
    unfold HeapProofs2.vals. rewrite (map_ext_in' (val s1) (val (storage h))); [exact Pm|].
    intros j Hj; apply V1; lia. }
  assert (H1 : H lt (val s1) (length l)).
  { eapply H_ext; [|exact Hh]. intros j Hj; symmetry; apply V1; lia. }
  destruct (Nat.ltb_spec 1 (S (length l))) as [K|K].
  - destruct (bubble_up_ok lt filler WO s1 (S (length l)) (S (length l)) G1) as (s2 & E2 & R2 & H2); [lia| |].
    { replace (S (length l) - 1) with (length l) by lia; exact H1. }
    rewrite E2; cbn [bind]. eexists; split; [reflexivity|]. split.
    + apply (holds_iff lt filler). cbn [next_leaf storage length]. split; [lia|].
      split; [apply R2|]. split; [exact H2|]. rewrite (rearr_vals _ _ _ R2). exact P1.
    + split; [symmetry; exact Sz|]. cbn. apply R2.
  - cbn [bind]. eexists; split; [reflexivity|]. split.
    + apply (holds_iff lt filler). cbn [next_leaf storage length]. split; [lia|].
      split; [exact G1|]. split; [|exact P1]. split; intros j Hj; lia.
    + split; [symmetry; exact Sz|reflexivity].
Qed.
Lemma push_full h l x : sized h -> holds lt h l -> ~ has_room h l -> push lt h x = Err.
Proof.
  intros Sz Hh Room. apply (holds_iff lt filler) in Hh. destruct Hh as (Nx & _).
  unfold push. rewrite Nx, Sz. unfold cap_of, has_room in *.
  destruct (limit (storage h)) as [n|]; [|tauto]. cbn [bind].
  replace (n <=? S (length l) - 1) with true; [reflexivity|]. symmetry; apply Nat.leb_le; lia.
Qed.

Lemma min_is_min s n l : good s n -> H lt (val s) n -> Permutation (vals s n) l -> 1 <= n -> is_min lt (val s 1) l.
Proof.
  intros G Hh Pm L; split.
  - apply (Permutation_in _ Pm). apply in_vals. exists 1; split; [lia|reflexivity].
  - intros y Hy. apply (Permutation_in _ (Permutation_sym Pm)) in Hy. apply in_vals in Hy.
    destruct Hy as (i & Hi & <-). apply (H_min lt WO (val s) n Hh i Hi).
Qed.
(** the index pop-max! picks *)
Definition maxidx (s : store A) (n : nat) : nat :=
  match n with 1 => 1 | 2 => 2 | _ => if gt lt (val s 2) (val s 3) then 2 else 3 end.
Lemma maxidx_range s n : 1 <= n -> 1 <= maxidx s n <= n.
Proof. intros L; unfold maxidx; destruct n as [|[|[|n]]]; try lia. destruct (gt lt _ _); lia. Qed.
Lemma maxidx_max s n j : H lt (val s) n -> 1 <= j <= n -> le lt false (val s (maxidx s n)) (val s j).
Proof.
  intros Hh Hj.
  assert (Root : forall k, 1 <= k <= n -> le lt false (val s k) (val s 1)).
  { intros k Hk. apply (H_min lt WO (val s) n Hh k Hk). }
  destruct (Nat.eq_dec j 1) as [->|N1].
  { apply Root, maxidx_range; lia. }
  destruct (H_max lt WO (val s) n Hh j ltac:(lia)) as [L|[L0 L]].
  - eapply (le_trans lt WO); [|exact L]. unfold maxidx; destruct n as [|[|[|n]]]; try lia.
    + apply (le_refl lt WO).
    + destruct (gt lt (val s 2) (val s 3)) eqn:E; [apply (le_refl lt WO)|].
      unfold le, rel; exact E.
  - eapply (le_trans lt WO); [|exact L]. unfold maxidx; destruct n as [|[|[|n]]]; try lia.
    destruct (gt lt (val s 2) (val s 3)) eqn:E; [|apply (le_refl lt WO)].
    apply (rel_le lt WO false). exact E.
Qed.
Lemma max_is_max s n l : good s n -> H lt (val s) n -> Permutation (vals s n) l -> 1 <= n -> is_max lt (val s (maxidx s n)) l.
Proof.
  intros G Hh Pm L; split.
  - apply (Permutation_in _ Pm). apply in_vals. exists (maxidx s n); split; [apply maxidx_range, L|reflexivity].
  - intros y Hy. apply (Permutation_in _ (Permutation_sym Pm)) in Hy. apply in_vals in Hy.
    destruct Hy as (i & Hi & <-). apply (maxidx_max s n i Hh Hi).
Qed.

Lemma find_min_ok h l fb : holds lt h l ->
  match l with
  | [] => find_min h fb = match fb with Some v => Ok v | None => Err end
  | _ => exists r, find_min h fb = Ok r /\ is_min lt r l
  end.
Proof.
  intros Hh. apply (holds_iff lt filler) in Hh. destruct Hh as (Nx & G & Hh & Pm).
  unfold find_min; rewrite Nx. destruct l as [|y l]; [reflexivity|].
  cbn [length Nat.eqb] in *. rewrite (sget_val filler _ (S (length l))) by (assumption || lia).
  eexists; split; [reflexivity|]. eapply min_is_min; try eassumption. lia.
Qed.
Lemma find_max_ok h l fb : holds lt h l ->
  match l with
  | [] => find_max lt h fb = match fb with Some v => Ok v | None => Err end
  | _ => exists r, find_max lt h fb = Ok r /\ is_max lt r l
  end.
Proof.
  intros Hh. apply (holds_iff lt filler) in Hh. destruct Hh as (Nx & G & Hh & Pm).
  unfold find_max; rewrite Nx. destruct l as [|y l]; [reflexivity|].
  exists (val (storage h) (maxidx (storage h) (length (y :: l)))). split; [|eapply max_is_max; try eassumption; cbn; lia].
  unfold maxidx. destruct l as [|y2 [|y3 l]]; cbn [length] in *.
  - rewrite (sget_val filler _ 1) by (assumption || lia). reflexivity.
  - rewrite (sget_val filler _ 2) by (assumption || lia). reflexivity.
  - rewrite !(sget_val filler _ (S (S (S (length l))))) by (assumption || lia). cbn [bind].
    destruct (gt lt _ _); reflexivity.
Qed.

(** removing the cell [i]: the last element takes its place *)
Lemma remove_at_ok s n i : good s (S n) -> H lt (val s) (S n) -> 1 <= i <= S n -> i <= 3 ->
  (forall j, 1 <= j <= S n -> le lt (min_node i) (val s i) (val s j)) ->
  exists s', (do l <- sget s (S n); do s1 <- sset s i l; do s2 <- sset s1 (S n) filler; trickle_down lt s2 i (S n)) = Ok s' /\
    good s' n /\ H lt (val s') n /\ limit s' = limit s /\ Permutation (vals s (S n)) (val s i :: vals s' n).
Proof.
  intros G Hh Hi I3 Top.
  rewrite (sget_val filler _ (S n)) by (assumption || lia). cbn [bind].
  rewrite sset_at by (apply G; lia). cbn [bind].
  rewrite sset_at by (apply (good_set_at s i (val s (S n)) (S n) G); lia). cbn [bind].
  set (s2 := set_at (set_at s i (val s (S n))) (S n) filler).
  assert (G2 : good s2 (S n)) by (apply good_set_at, good_set_at, G).
  assert (V2 : forall j, j <> S n -> val s2 j = upd (val s) i (val s (S n)) j).
  { intros j Hj; unfold s2; rewrite val_set_at; unfold upd at 1.
    destruct (Nat.eqb_spec j (S n)); [tauto|]. apply val_set_at. }
  destruct (Nat.eq_dec i (S n)) as [->|Ni].
  - rewrite (trickle_down_out lt s2 (S n) (S n) (val s2 (S n))); [|lia|lia|apply (sget_val filler _ (S n)); [exact G2|lia]].
    exists s2; split; [reflexivity|]. split; [eapply good_le; [exact G2|lia]|].
    assert (V3 : forall j, 1 <= j <= n -> val s2 j = val s j).
    { intros j Hj; rewrite V2 by lia; unfold upd. destruct (Nat.eqb_spec j (S n)); [lia|reflexivity]. }
    split; [eapply H_ext; [|eapply H_le; [exact Hh|]]; [intros j Hj; symmetry; apply V3; exact Hj|lia]|].
    split; [reflexivity|].
    rewrite vals_S. rewrite <- Permutation_cons_append. apply perm_skip.
    unfold HeapProofs2.vals. rewrite (map_ext_in' (val s2) (val s) n V3). reflexivity.
  - assert (V3 : forall j, 1 <= j <= n -> j <> i -> val s2 j = val s j).
    { intros j Hj Nj; rewrite V2 by lia; unfold upd. destruct (Nat.eqb_spec j i); [tauto|reflexivity]. }
    assert (V4 : val s2 i = val s (S n)).
    { rewrite V2 by lia; unfold upd; rewrite Nat.eqb_refl; reflexivity. }
    assert (T : TD lt (val s2) n i).
    { pose proof (H_min lt WO _ _ Hh) as Mn. destruct Hh as [H1 H2]. split.
      - intros j Hj Nj; unfold P. destruct (Nat.eq_dec j i) as [->|Nji].
        + replace (i / 2) with 1 by lia. rewrite V4, V3 by lia. apply Mn; lia.
        + rewrite !V3 by lia. apply H1; lia.
      - intros j Hj Nj; unfold P. rewrite !V3 by lia. apply H2; lia.
      - intros; lia. }
    replace (S n) with (n + 1) at 2 by lia.
    destruct (trickle_down_ok lt filler WO s2 n i) as (s3 & E3 & R3 & H3); [eapply good_le; [exact G2|lia]|lia|exact T|].
    replace (n + 1) with (S n) in * by lia.
    exists s3; split; [exact E3|]. split; [apply R3|]. split; [exact H3|]. split; [rewrite (r_limit _ _ _ _ R3); reflexivity|].
    rewrite (rearr_vals _ _ _ R3).
    rewrite vals_S, <- Permutation_cons_append.
    unfold HeapProofs2.vals at 2. rewrite (map_ext_in' (val s2) (upd (val s) i (val s (S n))) n).
    + symmetry. apply upd_perm. lia.
    + intros j Hj; apply V2; lia.
Qed.

Lemma pop_min_ok h l : holds lt h l -> l <> [] ->
  exists r h' l', pop_min lt filler h = Ok (r, h') /\ is_min lt r l /\ Permutation l (r :: l') /\ holds lt h' l' /\ frame h h'.
Proof.
  intros Hh NE. apply (holds_iff lt filler) in Hh. destruct Hh as (Nx & G & Hh & Pm).
  destruct (length l) as [|n] eqn:EL; [destruct l; [tauto|discriminate]|].
  unfold pop_min, num_entries; rewrite Nx. replace (S (S n) - 1) with (S n) by lia. cbn [Nat.eqb].
  rewrite (sget_val filler _ (S n) 1) by (assumption || lia). cbn [bind].
  destruct (remove_at_ok (storage h) n 1 G Hh) as (s' & E & G' & H' & L' & P'); [lia|lia|apply (H_min lt WO _ _ Hh)|].
  exists (val (storage h) 1), (mk_heap (cap h) s' (S n)), (vals s' n).
  destruct (sget (storage h) (S n)) as [x| | |]; try discriminate E. cbn [bind] in *.
  destruct (sset (storage h) 1 x) as [s1| | |]; try discriminate E. cbn [bind] in *.
  destruct (sset s1 (S n) filler) as [s2| | |]; try discriminate E. cbn [bind] in *.
  rewrite E; cbn [bind]. split; [reflexivity|].
  split; [eapply min_is_min; try eassumption; lia|].
  split; [rewrite <- Pm; exact P'|].
  assert (Ln : length (vals s' n) = n) by (unfold HeapProofs2.vals; rewrite map_length, seq_length; reflexivity).
  split; [|split; [reflexivity|exact L']].
  apply (holds_iff lt filler). rewrite Ln. cbn. split; [reflexivity|]. split; [exact G'|]. split; [exact H'|reflexivity].
Qed.
Lemma pop_max_ok h l : holds lt h l -> l <> [] ->
  exists r h' l', pop_max lt filler h = Ok (r, h') /\ is_max lt r l /\ Permutation l (r :: l') /\ holds lt h' l' /\ frame h h'.
Proof.
  intros Hh NE. apply (holds_iff lt filler) in Hh. destruct Hh as (Nx & G & Hh & Pm).
  destruct (length l) as [|n] eqn:EL; [destruct l; [tauto|discriminate]|].
  pose proof (max_is_max _ _ _ G Hh Pm ltac:(lia)) as MX.
  unfold pop_max, num_entries; rewrite Nx. replace (S (S n) - 1) with (S n) by lia.
  assert (Ln : forall s', length (vals s' n) = n) by (intros; unfold HeapProofs2.vals; rewrite map_length, seq_length; reflexivity).
  destruct (le_lt_dec n 1) as [Small|Big].
  - assert (MI : maxidx (storage h) (S n) = S n) by (unfold maxidx; destruct n as [|[|]]; [reflexivity|reflexivity|lia]).
    rewrite MI in MX.
    exists (val (storage h) (S n)), (mk_heap (cap h) (storage h) (S n)), (vals (storage h) n).
    split.
    { destruct n as [|[|]]; [| |lia]; rewrite (sget_val filler _ _ _ G) by lia; reflexivity. }
    split; [exact MX|].
    split; [rewrite <- Pm, vals_S, <- Permutation_cons_append; reflexivity|].
    split; [|split; reflexivity].
    apply (holds_iff lt filler). rewrite Ln. cbn. split; [reflexivity|].
    split; [eapply good_le; [exact G|lia]|]. split; [eapply H_le; [exact Hh|lia]|reflexivity].
  - destruct n as [|[|n]]; try lia.
    rewrite !(sget_val filler _ (S (S (S n)))) by (assumption || lia). cbn [bind].
    set (mi := maxidx (storage h) (S (S (S n)))) in *.
    assert (MI : mi = if gt lt (val (storage h) 2) (val (storage h) 3) then 2 else 3) by reflexivity.
    destruct (remove_at_ok (storage h) (S (S n)) mi G Hh) as (s' & E & G' & H' & L' & P').
    { apply maxidx_range; lia. }
    { rewrite MI; destruct (gt lt _ _); lia. }
    { intros j Hj. replace (min_node mi) with false by (rewrite MI; destruct (gt lt _ _); reflexivity).
      apply (maxidx_max _ _ _ Hh Hj). }
    exists (val (storage h) mi), (mk_heap (cap h) s' (S (S (S n)))), (vals s' (S (S n))).
    assert (SA : swap_and_adjust lt filler h (S (S (S n))) mi = Ok (mk_heap (cap h) s' (S (S (S n))))).
    { unfold swap_and_adjust.
      destruct (sget (storage h) (S (S (S n)))) as [x| | |]; try discriminate E. cbn [bind] in *.
      destruct (sset (storage h) mi x) as [s1| | |]; try discriminate E. cbn [bind] in *.
      destruct (sset s1 (S (S (S n))) filler) as [s2| | |]; try discriminate E. cbn [bind] in *.
      rewrite E; reflexivity. }
    split.
    { rewrite MI in SA |- *. destruct (gt lt _ _); rewrite SA; reflexivity. }
    split; [exact MX|]. split; [rewrite <- Pm; exact P'|].
    split; [|split; [reflexivity|exact L']].
    apply (holds_iff lt filler). rewrite Ln. cbn. split; [reflexivity|]. split; [exact G'|]. split; [exact H'|reflexivity].
Qed.
Lemma pop_empty h : holds lt h [] -> pop_min lt filler h = Err /\ pop_max lt filler h = Err.
Proof.
  intros Hh. apply (holds_iff lt filler) in Hh. destruct Hh as (Nx & _).
  unfold pop_min, pop_max, num_entries; rewrite Nx; split; reflexivity.
Qed.

Lemma swap_min_ok h l x : holds lt h l -> l <> [] ->
  exists r h' l', swap_min lt h x = Ok (r, h') /\ is_min lt r l /\ Permutation l (r :: l') /\ holds lt h' (x :: l') /\ frame h h'.
Proof.
  intros Hh NE. apply (holds_iff lt filler) in Hh. destruct Hh as (Nx & G & Hh & Pm).
  destruct (length l) as [|n] eqn:EL; [destruct l; [tauto|discriminate]|].
  unfold swap_min, is_empty, num_entries; rewrite Nx. replace (S (S n) - 1) with (S n) by lia. cbn [Nat.eqb].
  rewrite (sget_val filler _ (S n) 1) by (assumption || lia). cbn [bind].
  rewrite sset_at by (apply G; lia). cbn [bind].
  set (s1 := set_at (storage h) 1 x).
  assert (G1 : good s1 (S n)) by (apply good_set_at, G).
  assert (V1 : forall j, val s1 j = upd (val (storage h)) 1 x j) by (intros; apply val_set_at).
  assert (Vo : forall j, j <> 1 -> val s1 j = val (storage h) j).
  { intros j Hj; rewrite V1; unfold upd. destruct (Nat.eqb_spec j 1); [tauto|reflexivity]. }
  set (l' := map (val (storage h)) (seq 2 n)).
  assert (Pl : Permutation l (val (storage h) 1 :: l')).
  { rewrite <- Pm. unfold HeapProofs2.vals. cbn [seq map]. reflexivity. }
  assert (P1 : Permutation (vals s1 (S n)) (x :: l')).
  { unfold HeapProofs2.vals. cbn [seq map]. rewrite V1; unfold upd; cbn [Nat.eqb]. apply perm_skip.
    replace (map (val s1) (seq 2 n)) with l'; [reflexivity|].
    apply map_ext_in; intros j Hj; apply in_seq in Hj. symmetry; apply Vo; lia. }
  assert (Ll : length (x :: l') = S n) by (cbn [length]; unfold l'; rewrite map_length, seq_length; reflexivity).
  assert (Mn : is_min lt (val (storage h) 1) l) by (eapply min_is_min; try eassumption; lia).
  destruct (Nat.ltb_spec 1 (S n)) as [K|K].
  - assert (T : TD lt (val s1) (S n) 1).
    { destruct Hh as [H1 H2]. split.
      - intros j Hj Nj; unfold P. rewrite !Vo by lia. apply H1; lia.
      - intros j Hj Nj; unfold P. rewrite !Vo by lia. apply H2; lia.
      - intros; lia. }
    destruct (trickle_down_ok lt filler WO s1 (S n) 1 G1 ltac:(lia) T) as (s2 & E2 & R2 & H2).
    rewrite E2; cbn [bind].
    eexists _, _, l'. split; [reflexivity|]. split; [exact Mn|]. split; [exact Pl|].
    split; [|split; [reflexivity|apply R2]].
    apply (holds_iff lt filler). rewrite Ll. cbn [next_leaf storage].
    split; [reflexivity|]. split; [apply R2|]. split; [exact H2|]. rewrite (rearr_vals _ _ _ R2); exact P1.
  - cbn [bind]. eexists _, _, l'. split; [reflexivity|]. split; [exact Mn|]. split; [exact Pl|].
    split; [|split; reflexivity].
    apply (holds_iff lt filler). rewrite Ll. cbn [next_leaf storage].
    split; [reflexivity|]. split; [exact G1|]. split; [|exact P1]. split; intros j Hj; lia.
Qed.

Lemma store_adjust_ok h n x i : next_leaf h = S (S n) -> good (storage h) (S n) -> H lt (val (storage h)) (S n) ->
  (i = 2 \/ i = 3) -> i <= S n -> (forall j, 1 <= j <= S n -> le lt false (val (storage h) i) (val (storage h) j)) ->
  exists s', (do a <- sget (storage h) 1; do s1 <- sset (storage h) i x; do s2 <- (if gt lt a x then swap s1 1 i else Ok s1);
              Ok s2) = Ok s' /\
    good s' (S n) /\ limit s' = limit (storage h) /\ TD lt (val s') (S n) i /\
    Permutation (val (storage h) i :: vals s' (S n)) (x :: vals (storage h) (S n)).
Proof.
  intros Nx G Hh Hi Hi2 Top.
  rewrite (sget_val filler _ (S n) 1) by (assumption || lia). cbn [bind].
  rewrite sset_at by (apply G; lia). cbn [bind].
  set (s1 := set_at (storage h) i x).
  assert (G1 : good s1 (S n)) by (apply good_set_at, G).
  assert (V1 : forall j, val s1 j = upd (val (storage h)) i x j) by (intros; apply val_set_at).
  assert (P1 : Permutation (val (storage h) i :: vals s1 (S n)) (x :: vals (storage h) (S n))).
  { unfold HeapProofs2.vals at 1. rewrite (map_ext _ _ V1). apply upd_perm; lia. }
  assert (Vo : forall j, j <> i -> val s1 j = val (storage h) j).
  { intros j Hj; rewrite V1; unfold upd. destruct (Nat.eqb_spec j i); [tauto|reflexivity]. }
  assert (Vi : val s1 i = x) by (rewrite V1; unfold upd; rewrite Nat.eqb_refl; reflexivity).
  (* any arrangement with a smaller root will do *)
  assert (TT : forall w, (forall j, j <> 1 -> j <> i -> w j = val (storage h) j) ->
            le lt true (w 1) (val (storage h) 1) -> le lt true (w 1) (w i) -> TD lt w (S n) i).
  { intros w Wo W1 Wi. pose proof (H_min lt WO _ _ Hh) as Mn. destruct Hh as [H1 H2]. split.
    - intros j Hj Nj; unfold P.
      destruct (Nat.eq_dec j i) as [->|Nji].
      { replace (i / 2) with 1 by lia. exact Wi. }
      destruct (Nat.eq_dec (j / 2) 1) as [E|N1].
      { rewrite E, (Wo j) by lia. eapply (le_trans lt WO); [exact W1|]. apply Mn; lia. }
      rewrite !Wo by lia. apply H1; lia.
    - intros j Hj Nj; unfold P.
      destruct (Nat.eq_dec (j / 4) 1) as [E|N1].
      { rewrite E, (Wo j) by lia. eapply (le_trans lt WO); [exact W1|]. apply Mn; lia. }
      rewrite !Wo by lia. apply H2; lia.
    - intros; lia. }
  destruct (gt lt (val (storage h) 1) x) eqn:E.
  - destruct (swap_ok filler s1 (S n) 1 i G1) as (s2 & E2 & R2 & V2); [lia|lia|].
    rewrite E2; cbn [bind]. exists s2; split; [reflexivity|]. split; [apply R2|]. split; [rewrite (r_limit _ _ _ _ R2); reflexivity|].
    split; [|rewrite (rearr_vals _ _ _ R2); exact P1].
    assert (L : le lt true x (val (storage h) 1)) by (apply (rel_le lt WO true); exact E).
    apply TT.
    + intros j N1 Ni. rewrite V2, sw_o by assumption. apply Vo; assumption.
    + rewrite V2, sw_l, Vi. exact L.
    + rewrite !V2, sw_l, sw_r, Vi, Vo by lia. exact L.
  - cbn [bind]. exists s1; split; [reflexivity|]. split; [exact G1|]. split; [reflexivity|]. split; [|exact P1].
    apply TT.
    + intros j N1 Ni. apply Vo; assumption.
    + rewrite Vo by lia. apply (le_refl lt WO).
    + rewrite Vi, Vo by lia. exact E.
Qed.
Lemma swap_max_ok h l x : holds lt h l -> l <> [] ->
  exists r h' l', swap_max lt h x = Ok (r, h') /\ is_max lt r l /\ Permutation l (r :: l') /\ holds lt h' (x :: l') /\ frame h h'.
Proof.
  intros Hh NE. apply (holds_iff lt filler) in Hh. destruct Hh as (Nx & G & Hh & Pm).
  destruct (length l) as [|n] eqn:EL; [destruct l; [tauto|discriminate]|].
  pose proof (max_is_max _ _ _ G Hh Pm ltac:(lia)) as MX.
  assert (Ex : exists l', Permutation l (val (storage h) (maxidx (storage h) (S n)) :: l')).
  { destruct MX as [MX _]. apply in_split in MX. destruct MX as (a & b & E). exists (a ++ b).
    rewrite E at 1. symmetry; apply Permutation_middle. }
  destruct Ex as [l' Pl].
  assert (Ll : length (x :: l') = S n).
  { apply Permutation_length in Pl. cbn [length] in *. lia. }
  assert (Fin : forall s', Permutation (val (storage h) (maxidx (storage h) (S n)) :: vals s' (S n)) (x :: vals (storage h) (S n)) ->
            Permutation (vals s' (S n)) (x :: l')).
  { intros s' HP. apply (Permutation_cons_inv (a := val (storage h) (maxidx (storage h) (S n)))).
    rewrite HP, Pm, Pl. apply perm_swap. }
  unfold swap_max, num_entries; rewrite Nx. replace (S (S n) - 1) with (S n) by lia.
  destruct n as [|[|n]].
  - rewrite (sget_val filler _ 1 1) by (assumption || lia). cbn [bind].
    rewrite sset_at by (apply G; lia). cbn [bind].
    eexists _, _, l'. split; [reflexivity|]. split; [exact MX|]. split; [exact Pl|].
    split; [|split; reflexivity].
    apply (holds_iff lt filler). rewrite Ll. cbn [next_leaf storage].
    split; [reflexivity|]. split; [apply good_set_at, G|]. split; [split; intros j Hj; lia|].
    apply Fin. unfold HeapProofs2.vals, maxidx; cbn [seq map]. rewrite val_set_at; unfold upd; cbn [Nat.eqb]. apply perm_swap.
  - destruct (store_adjust_ok h 1 x 2 Nx G Hh ltac:(lia) ltac:(lia) (fun j => maxidx_max _ _ j Hh)) as (s' & E & G' & L' & T' & P').
    rewrite (sget_val filler _ 2 2) by (assumption || lia). cbn [bind].
    exists (val (storage h) 2), (mk_heap (cap h) s' 3), l'.
    split.
    { destruct (sget (storage h) 1) as [a| | |]; try discriminate E. cbn [bind] in *.
      destruct (sset (storage h) 2 x) as [s1| | |]; try discriminate E. cbn [bind] in *.
      destruct (if gt lt a x then swap s1 1 2 else Ok s1) as [s2| | |]; try discriminate E. cbn [bind] in *.
      injection E as ->; reflexivity. }
    split; [exact MX|]. split; [exact Pl|]. split; [|split; [reflexivity|exact L']].
    apply (holds_iff lt filler). rewrite Ll. cbn [next_leaf storage].
    split; [reflexivity|]. split; [exact G'|]. split; [|apply Fin; exact P'].
    apply (TD_stop lt (val s') 2 2); [lia|exact T'|]. intros c Hc [D|D]; lia.
  - rewrite !(sget_val filler _ (S (S (S n)))) by (assumption || lia). cbn [bind].
    set (mi := maxidx (storage h) (S (S (S n)))) in *.
    assert (MI : mi = if gt lt (val (storage h) 2) (val (storage h) 3) then 2 else 3) by reflexivity.
    assert (M23 : mi = 2 \/ mi = 3) by (rewrite MI; destruct (gt lt _ _); lia).
    destruct (store_adjust_ok h (S (S n)) x mi Nx G Hh M23 ltac:(lia) (fun j => maxidx_max _ _ j Hh)) as (s' & E & G' & L' & T' & P').
    destruct (trickle_down_ok lt filler WO s' (S (S (S n))) mi G' ltac:(lia) T') as (s3 & E3 & R3 & H3).
    exists (val (storage h) mi), (mk_heap (cap h) s3 (S (S (S (S n))))), l'.
    assert (SA : store_and_adjust lt h x (S (S (S n))) mi = Ok (mk_heap (cap h) s3 (S (S (S (S n)))))).
    { unfold store_and_adjust.
      destruct (sget (storage h) 1) as [a| | |]; try discriminate E. cbn [bind] in *.
      destruct (sset (storage h) mi x) as [s1| | |]; try discriminate E. cbn [bind] in *.
      destruct (if gt lt a x then swap s1 1 mi else Ok s1) as [s2| | |]; try discriminate E. cbn [bind] in *.
      injection E as ->. rewrite E3; cbn [bind]. rewrite Nx; reflexivity. }
    split.
    { clearbody mi. subst mi. destruct (gt lt _ _); rewrite SA; reflexivity. }
    split; [exact MX|]. split; [exact Pl|]. split; [|split; [reflexivity|]].
    + apply (holds_iff lt filler). rewrite Ll. cbn [next_leaf storage].
      split; [reflexivity|]. split; [apply R3|]. split; [exact H3|]. rewrite (rearr_vals _ _ _ R3). apply Fin; exact P'.
    + cbn. rewrite (r_limit _ _ _ _ R3); exact L'.
Qed.
Lemma swap_empty h x : holds lt h [] -> swap_min lt h x = Err /\ swap_max lt h x = Err.
Proof.
  intros Hh. apply (holds_iff lt filler) in Hh. destruct Hh as (Nx & _).
  unfold swap_min, is_empty, swap_max, num_entries; rewrite Nx; split; reflexivity.
Qed.

Lemma clear_ok h l : holds lt h l -> holds lt (heap_clear h) [] /\ frame h (heap_clear h).
Proof.
  intros Hh. split; [|split; reflexivity]. apply (holds_iff lt filler). cbn.
  split; [reflexivity|]. split; [intros i Hi; lia|]. split; [split; intros; lia|reflexivity].
Qed.
Lemma copy_ok h l : holds lt h l -> holds lt (heap_copy h) l.
Proof. intros [[? ? ? ? ?] Pm]; split; [split|]; assumption. Qed.
Lemma make_ok s : holds lt (make_heap s) [] /\ sized (make_heap s).
Proof.
  split; [|reflexivity]. apply (holds_iff lt filler). cbn.
  split; [reflexivity|]. split; [intros i Hi; lia|]. split; [split; intros; lia|reflexivity].
Qed.
Lemma build_ok s xlen ne : (forall i, 1 <= i <= xlen -> in_limit s i = true /\ cells s i <> None) ->
  exists h, build_heap lt s xlen ne = Ok h /\ sized h /\ limit (storage h) = limit s /\
    holds lt h (elements s (match ne with None => xlen | Some n => Nat.min n xlen end)).
Proof.
  intros G. unfold build_heap. set (size := match ne with None => xlen | Some n => Nat.min n xlen end).
  assert (Sz : size <= xlen) by (unfold size; destruct ne; lia).
  assert (G1 : good s size) by (intros i Hi; apply G; lia).
  destruct (heapify_ok lt filler WO s size G1) as (s' & E & R & Hh).
  rewrite E; cbn [bind]. eexists; split; [reflexivity|]. cbn [storage].
  split; [unfold sized, cap_of; cbn; rewrite (r_limit _ _ _ _ R); reflexivity|].
  split; [apply R|].
  rewrite (elements_vals filler) by exact G1.
  apply (holds_iff lt filler). cbn [next_leaf storage].
  replace (length (vals s size)) with size by (unfold HeapProofs2.vals; rewrite map_length, seq_length; reflexivity).
  split; [lia|]. split; [apply R|]. split; [exact Hh|]. apply R.
Qed.

(** find *)
Lemma find_loop_ok pred s N : good s N -> forall n i, 1 <= i -> i + n = S N ->
  exists r, find_loop n i pred s = Ok r /\
    match r with
    | Some x => pred x = true /\ exists j, i <= j <= N /\ val s j = x
    | None => forall j, i <= j <= N -> pred (val s j) = false
    end.
Proof.
  intros G; induction n as [|n IH]; intros i Hi E; cbn [find_loop].
  - exists None; split; [reflexivity|]. intros j Hj; lia.
  - rewrite (sget_val filler _ N) by (assumption || lia). cbn [bind].
    destruct (pred (val s i)) eqn:Ep.
    + exists (Some (val s i)); split; [reflexivity|]. split; [exact Ep|]. exists i; split; [lia|reflexivity].
    + destruct (IH (S i)) as (r & Er & Hr); [lia|lia|]. exists r; split; [exact Er|]. destruct r as [x|].
      * destruct Hr as (Hx & j & Hj & Ej); split; [exact Hx|]. exists j; split; [lia|exact Ej].
      * intros j Hj. destruct (Nat.eq_dec j i) as [->|]; [exact Ep|]. apply Hr; lia.
Qed.
Lemma heap_find_ok pred h l : holds lt h l ->
  exists r, heap_find pred h = Ok r /\
    match r with Some x => In x l /\ pred x = true | None => forall x, In x l -> pred x = false end.
Proof.
  intros Hh. apply (holds_iff lt filler) in Hh. destruct Hh as (Nx & G & Hh & Pm).
  unfold heap_find, num_entries; rewrite Nx. replace (S (length l) - 1) with (length l) by lia.
  destruct (find_loop_ok pred (storage h) (length l) G (length l) 1) as (r & Er & Hr); [lia|lia|].
  exists r; split; [exact Er|]. destruct r as [x|].
  - destruct Hr as (Hx & j & Hj & Ej). split; [|exact Hx]. apply (Permutation_in _ Pm), in_vals. exists j; tauto.
  - intros x Hx. apply (Permutation_in _ (Permutation_sym Pm)), in_vals in Hx. destruct Hx as (i & Hi & <-). apply Hr; lia.
Qed.

(** remove! *)
Lemma perm_filter (f : A -> bool) l l' : Permutation l l' -> Permutation (filter f l) (filter f l').
Proof.
  induction 1 as [|x l l' HP IH|x y l|l l' l'' _ IH1 _ IH2]; cbn [filter].
  - constructor.
  - destruct (f x); [apply perm_skip|]; exact IH.
  - destruct (f x), (f y); try apply perm_swap; reflexivity.
  - etransitivity; eassumption.
Qed.
Lemma filter_vals_none (f : A -> bool) (v : nat -> A) : forall n i, (forall j, i <= j < i + n -> f (v j) = false) -> filter f (map v (seq i n)) = [].
Proof.
  induction n as [|n IH]; intros i Hf; [reflexivity|]. cbn [seq map filter]. rewrite Hf by lia. apply IH. intros; apply Hf; lia.
Qed.
Lemma filter_vals_all (f : A -> bool) (v : nat -> A) : forall n i, (forall j, i <= j < i + n -> f (v j) = true) -> filter f (map v (seq i n)) = map v (seq i n).
Proof.
  induction n as [|n IH]; intros i Hf; [reflexivity|]. cbn [seq map filter]. rewrite Hf by lia. f_equal. apply IH. intros; apply Hf; lia.
Qed.
Lemma fill_loop_ok : forall k i s, (forall j, i <= j < i + k -> in_limit s j = true) ->
  exists s', fill_loop filler k i s = Ok s' /\ limit s' = limit s /\ forall j, j < i -> cells s' j = cells s j.
Proof.
  induction k as [|k IH]; intros i s L; cbn [fill_loop].
  - exists s; split; [reflexivity|]; split; reflexivity.
  - rewrite sset_at by (apply L; lia). cbn [bind].
    destruct (IH (S i) (set_at s i filler)) as (s' & E & L' & C').
    { intros j Hj. apply (L j); lia. }
    exists s'; split; [exact E|]. split; [exact L'|].
    intros j Hj. rewrite C' by lia. cbn. destruct (Nat.eqb_spec j i); [lia|reflexivity].
Qed.
Lemma finish_ok h l s next : holds lt h l -> 1 <= next <= S (length l) -> good s (length l) -> limit s = limit (storage h) ->
  (next = S (length l) -> s = storage h) ->
  exists h', finish_up lt filler h s next = Ok h' /\ holds lt h' (vals s (next - 1)) /\ frame h h'.
Proof.
  intros Hh Hn G L Same. pose proof Hh as Hh'. apply (holds_iff lt filler) in Hh'. destruct Hh' as (Nx & G0 & H0 & Pm).
  unfold finish_up; rewrite Nx. destruct (Nat.eqb_spec next (S (length l))) as [->|N].
  - rewrite (Same eq_refl) in *. eexists; split; [reflexivity|]. split; [|split; reflexivity].
    replace (S (length l) - 1) with (length l) by lia.
    apply (holds_iff lt filler).
    replace (length (vals (storage h) (length l))) with (length l) by (unfold HeapProofs2.vals; rewrite map_length, seq_length; reflexivity).
    cbn [next_leaf storage]. split; [reflexivity|]. split; [exact G0|]. split; [exact H0|reflexivity].
  - destruct (heapify_ok lt filler WO s (next - 1)) as (s1 & E1 & R1 & H1); [eapply good_le; [exact G|lia]|].
    rewrite E1; cbn [bind].
    destruct (fill_loop_ok (S (length l) - next) next s1) as (s2 & E2 & L2 & C2).
    { intros j Hj. destruct (G j) as [G1 _]; [lia|]. unfold in_limit in *. rewrite (r_limit _ _ _ _ R1); exact G1. }
    rewrite E2; cbn [bind]. eexists; split; [reflexivity|].
    assert (V2 : forall j, 1 <= j <= next - 1 -> val s1 j = val s2 j).
    { intros j Hj; unfold HeapProofs2.val. rewrite C2 by lia; reflexivity. }
    split.
    + apply (holds_iff lt filler).
      replace (length (vals s (next - 1))) with (next - 1) by (unfold HeapProofs2.vals; rewrite map_length, seq_length; reflexivity).
      cbn [next_leaf storage]. split; [lia|].
      split. { intros i Hi. destruct (r_good _ _ _ _ R1 i Hi) as [Ga Gb]. split; [unfold in_limit in *; rewrite L2; exact Ga|]. rewrite C2 by lia; exact Gb. }
      split; [eapply H_ext; [exact V2|exact H1]|].
      unfold HeapProofs2.vals at 1. rewrite <- (map_ext_in' _ _ _ V2). apply R1.
    + split; [reflexivity|]. cbn. rewrite L2, (r_limit _ _ _ _ R1); exact L.
Qed.
Lemma remove_loop_ok pred h l : holds lt h l -> forall fuel s i next,
  (next - i) < fuel -> 1 <= i -> i <= next -> next <= S (length l) ->
  good s (length l) -> limit s = limit (storage h) -> (next = S (length l) -> s = storage h) ->
  Permutation (vals s (length l)) l ->
  (forall j, 1 <= j < i -> pred (val s j) = false) ->
  (forall j, next <= j <= length l -> pred (val s j) = true) ->
  exists h' l', remove_loop lt filler fuel pred h s i next = Ok h' /\ holds lt h' l' /\
    Permutation l' (filter (fun x => negb (pred x)) l) /\ frame h h'.
Proof.
  intros Hh; induction fuel as [|fuel IH]; intros s i next Hf Hi Hin Hn G L Same Pm Lo Hi2; [lia|].
  assert (Done : forall nx, 1 <= nx <= S (length l) -> (nx = S (length l) -> s = storage h) ->
     (forall j, 1 <= j < nx -> pred (val s j) = false) -> (forall j, nx <= j <= length l -> pred (val s j) = true) ->
     exists h' l', finish_up lt filler h s nx = Ok h' /\ holds lt h' l' /\
       Permutation l' (filter (fun x => negb (pred x)) l) /\ frame h h').
  { intros nx Hnx Sm Low Up. destruct (finish_ok h l s nx Hh Hnx G L Sm) as (h' & E & Ho & Fr).
    exists h', (vals s (nx - 1)); split; [exact E|]. split; [exact Ho|]. split; [|exact Fr].
    rewrite <- (perm_filter (fun x => negb (pred x)) _ _ Pm). unfold HeapProofs2.vals.
    replace (seq 1 (length l)) with (seq 1 (nx - 1) ++ seq nx (length l - (nx - 1))).
    2:{ replace (seq nx (length l - (nx - 1))) with (seq (1 + (nx - 1)) (length l - (nx - 1))) by (f_equal; lia).
        rewrite <- seq_app; f_equal; lia. }
    rewrite map_app, filter_app, filter_vals_all, filter_vals_none, app_nil_r; [reflexivity| |].
    - intros j Hj. rewrite Up by lia; reflexivity.
    - intros j Hj. rewrite Low by lia; reflexivity. }
  cbn [remove_loop]. destruct (Nat.leb_spec next i) as [K|K].
  - apply Done; [lia|exact Same| |exact Hi2]. intros j Hj; apply Lo; lia.
  - rewrite (sget_val filler _ (length l)) by (assumption || lia). cbn [bind].
    destruct (pred (val s i)) eqn:Ep.
    + destruct (Nat.eqb_spec (i + 1) next) as [E|N].
      * apply Done; [lia|lia|exact Lo|]. intros j Hj. destruct (Nat.eq_dec j i) as [->|]; [exact Ep|apply Hi2; lia].
      * destruct (swap_ok filler s (length l) i (next - 1) G) as (s1 & E1 & R1 & V1); [lia|lia|].
        rewrite E1; cbn [bind]. apply IH; [lia|lia|lia|lia|apply R1|rewrite (r_limit _ _ _ _ R1); exact L|lia| | |].
        -- rewrite (rearr_vals _ _ _ R1); exact Pm.
        -- intros j Hj. rewrite V1, sw_o by lia. apply Lo; lia.
        -- intros j Hj. destruct (Nat.eq_dec j (next - 1)) as [->|]; rewrite V1; [rewrite sw_r; exact Ep|].
           rewrite sw_o by lia. apply Hi2; lia.
    + apply IH; [lia|lia|lia|lia|exact G|exact L|exact Same|exact Pm| |exact Hi2].
      intros j Hj. destruct (Nat.eq_dec j i) as [->|]; [exact Ep|]. apply Lo; lia.
Qed.
Lemma remove_ok pred h l : holds lt h l ->
  exists h', remove lt filler h pred = Ok h' /\ holds lt h' (filter (fun x => negb (pred x)) l) /\ frame h h'.
Proof.
  intros Hh. pose proof Hh as Hh'. apply (holds_iff lt filler) in Hh'. destruct Hh' as (Nx & G0 & H0 & Pm).
  unfold remove. rewrite Nx.
  destruct (remove_loop_ok pred h l Hh (S (S (length l))) (storage h) 1 (S (length l))) as (h' & l' & E & Ho & P' & Fr);
    try assumption; try lia; try reflexivity; try (intros j Hj; lia).
  - exists h'; split; [exact E|]. split; [|exact Fr]. destruct Ho as [V P2]. split; [exact V|]. rewrite P2; exact P'.
Qed.
End HeapP3.
