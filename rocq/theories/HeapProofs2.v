(** Min-max heaps: the operations on the storage. *)
From Coq Require Import List Bool Arith Permutation Lia ZArith ZifyNat.
From Verif Require Import Outcome HeapModel HeapSpec HeapProofs.
Import ListNotations.
Local Open Scope nat_scope.
Ltac Zify.zify_post_hook ::= Z.to_euclidean_division_equations.

Section HeapP2.
Context {A : Type} (lt : A -> A -> bool) (filler : A) (WO : weak_order lt).

Definition val (s : store A) (i : nat) : A := match cells s i with Some x => x | None => filler end.
Definition good (s : store A) (N : nat) : Prop := forall i, 1 <= i <= N -> in_limit s i = true /\ cells s i <> None.
Definition vals (s : store A) (n : nat) : list A := map (val s) (seq 1 n).

Lemma good_le s N M : good s N -> M <= N -> good s M.
Proof. intros G L i Hi; apply G; lia. Qed.
Lemma elements_vals s n : good s n -> elements s n = vals s n.
Proof.
  intros G; unfold elements, vals.
  assert (E : forall l, (forall i, In i l -> 1 <= i <= n) ->
    flat_map (fun i => match cells s i with Some v => [v] | None => [] end) l = map (val s) l).
  { induction l as [|i l IH]; intros Hl; [reflexivity|]. cbn [flat_map map].
    rewrite IH by (intros; apply Hl; right; assumption).
    destruct (G i) as [_ G2]; [apply Hl; left; reflexivity|].
    unfold val; destruct (cells s i); [reflexivity|congruence]. }
  apply E; intros i Hi; apply in_seq in Hi; lia.
Qed.
Lemma sget_val s N i : good s N -> 1 <= i <= N -> sget s i = Ok (val s i).
Proof.
  intros G Hi; destruct (G i Hi) as [G1 G2]; unfold sget, val; rewrite G1.
  destruct (cells s i); [reflexivity|congruence].
Qed.
Lemma sget_in s N i : good s N -> 1 <= i <= N -> In (val s i) (vals s N) .
Proof. intros G Hi; apply in_map, in_seq; lia. Qed.

Definition upd (v : nat -> A) (i : nat) (x : A) : nat -> A := fun j => if j =? i then x else v j.

(** [s'] is [s] with cell [i] set to [x] *)
Definition set_at (s : store A) (i : nat) (x : A) : store A :=
  mk_store (fun j => if j =? i then Some x else cells s j) (limit s).
Lemma sset_at s i x : in_limit s i = true -> sset s i x = Ok (set_at s i x).
Proof. intros E; unfold sset; rewrite E; reflexivity. Qed.
Lemma val_set_at s i x j : val (set_at s i x) j = upd (val s) i x j.
Proof. unfold val, upd, set_at; cbn; destruct (j =? i); reflexivity. Qed.
Lemma good_set_at s i x N : good s N -> good (set_at s i x) N.
Proof.
  intros G j Hj; destruct (G j Hj) as [G1 G2]; split; [exact G1|].
  unfold set_at; cbn; destruct (j =? i); [discriminate|exact G2].
Qed.
Lemma good_set_at_S s x N : good s N -> in_limit s (S N) = true -> good (set_at s (S N) x) (S N).
Proof.
  intros G L j Hj; destruct (Nat.eq_dec j (S N)) as [->|N0].
  - split; [exact L|]. unfold set_at; cbn; rewrite Nat.eqb_refl; discriminate.
  - destruct (G j) as [G1 G2]; [lia|]; split; [exact G1|].
    unfold set_at; cbn; destruct (j =? S N); [discriminate|exact G2].
Qed.

(** permutations of the contents *)
Lemma map_ext_in' {B} (f g : nat -> B) n : (forall j, 1 <= j <= n -> f j = g j) -> map f (seq 1 n) = map g (seq 1 n).
Proof. intros E; apply map_ext_in; intros j Hj; apply in_seq in Hj; apply E; lia. Qed.
Lemma swapped_perm (v : nat -> A) a b n : 1 <= a <= n -> 1 <= b <= n ->
  Permutation (map (swapped v a b) (seq 1 n)) (map v (seq 1 n)).
Proof.
  intros Ha Hb.
  set (t := fun j => if j =? a then b else if j =? b then a else j).
  assert (Tr : forall j, 1 <= j <= n -> 1 <= t j <= n).
  { intros j Hj; unfold t; destruct (Nat.eqb_spec j a); [lia|]; destruct (Nat.eqb_spec j b); lia. }
  assert (Ti : forall j, t (t j) = j).
  { intros j; unfold t; destruct (Nat.eqb_spec j a) as [->|N1].
    - destruct (Nat.eqb_spec b a) as [E|]; [lia|]. rewrite Nat.eqb_refl; reflexivity.
    - destruct (Nat.eqb_spec j b) as [->|N2].
      + rewrite Nat.eqb_refl; reflexivity.
      + destruct (Nat.eqb_spec j a); [tauto|]; destruct (Nat.eqb_spec j b); [tauto|reflexivity]. }
  assert (E : map (swapped v a b) (seq 1 n) = map v (map t (seq 1 n))).
  { rewrite map_map; apply map_ext; intros j; unfold swapped, t.
    destruct (j =? a); [reflexivity|]; destruct (j =? b); reflexivity. }
  rewrite E; apply Permutation_map, NoDup_Permutation.
  - apply FinFun.Injective_map_NoDup; [|apply seq_NoDup].
    intros x y HH; rewrite <- (Ti x), <- (Ti y), HH; reflexivity.
  - apply seq_NoDup.
  - intros x; rewrite in_map_iff, in_seq; split.
    + intros (y & <- & Hy); apply in_seq in Hy; specialize (Tr y); lia.
    + intros Hx; exists (t x); split; [apply Ti|]. apply in_seq. specialize (Tr x); lia.
Qed.
Lemma upd_perm (v : nat -> A) i x n : 1 <= i <= n ->
  Permutation (v i :: map (upd v i x) (seq 1 n)) (x :: map v (seq 1 n)).
Proof.
  intros Hi.
  replace (seq 1 n) with (seq 1 (i - 1) ++ i :: seq (S i) (n - i)).
  2:{ change (i :: seq (S i) (n - i)) with (seq i (S (n - i))).
      replace (seq i (S (n - i))) with (seq (1 + (i - 1)) (S (n - i))) by (f_equal; lia).
      rewrite <- seq_app; f_equal; lia. }
  rewrite !map_app; cbn [map].
  assert (E1 : map (upd v i x) (seq 1 (i - 1)) = map v (seq 1 (i - 1))).
  { apply map_ext_in; intros j Hj; apply in_seq in Hj; unfold upd.
    destruct (Nat.eqb_spec j i); [lia|reflexivity]. }
  assert (E2 : map (upd v i x) (seq (S i) (n - i)) = map v (seq (S i) (n - i))).
  { apply map_ext_in; intros j Hj; apply in_seq in Hj; unfold upd.
    destruct (Nat.eqb_spec j i); [lia|reflexivity]. }
  rewrite E1, E2. unfold upd at 1; rewrite Nat.eqb_refl.
  rewrite <- !Permutation_middle. apply perm_swap.
Qed.
Lemma vals_S s n : vals s (S n) = vals s n ++ [val s (S n)].
Proof. unfold vals; rewrite seq_S, map_app; reflexivity. Qed.

(** rearrangement of the first [N] cells *)
Record rearr (N : nat) (s s' : store A) : Prop := {
  r_good : good s' N;
  r_limit : limit s' = limit s;
  r_perm : Permutation (vals s' N) (vals s N);
  r_rest : forall j, N < j -> cells s' j = cells s j
}.
Lemma rearr_refl N s : good s N -> rearr N s s.
Proof. intros G; split; auto. Qed.
Lemma rearr_trans N s1 s2 s3 : rearr N s1 s2 -> rearr N s2 s3 -> rearr N s1 s3.
Proof.
  intros [] []; split; [assumption|congruence| |].
  - etransitivity; eassumption.
  - intros j Hj; rewrite r_rest1, r_rest0 by assumption; reflexivity.
Qed.
Lemma rearr_le N M s s' : rearr N s s' -> N <= M -> good s M -> good s' M.
Proof.
  intros R L G i Hi. destruct (le_lt_dec i N) as [HH|HH].
  - apply (r_good _ _ _ R); lia.
  - destruct (G i Hi) as [G1 G2]; split.
    + unfold in_limit in *; rewrite (r_limit _ _ _ R); exact G1.
    + rewrite (r_rest _ _ _ R) by assumption; exact G2.
Qed.

Lemma swap_ok s N a b : good s N -> 1 <= a <= N -> 1 <= b <= N ->
  exists s', swap s a b = Ok s' /\ rearr N s s' /\ (forall j, val s' j = swapped (val s) a b j).
Proof.
  intros G Ha Hb.
  destruct (G a Ha) as [La _]. destruct (G b Hb) as [Lb _].
  assert (V : forall j, val (set_at (set_at s a (val s b)) b (val s a)) j = swapped (val s) a b j).
  { intros j; rewrite val_set_at; unfold upd. rewrite val_set_at; unfold upd, swapped.
    destruct (Nat.eqb_spec j b) as [->|].
    - destruct (Nat.eqb_spec b a) as [->|]; reflexivity.
    - reflexivity. }
  exists (set_at (set_at s a (val s b)) b (val s a)); split; [|split; [|exact V]].
  - unfold swap. rewrite (sget_val s N a), (sget_val s N b) by assumption. cbn [bind].
    rewrite sset_at by assumption. cbn [bind]. rewrite sset_at by exact Lb. reflexivity.
  - split.
    + apply good_set_at, good_set_at, G.
    + reflexivity.
    + unfold vals. rewrite (map_ext _ _ V). apply swapped_perm; assumption.
    + intros j Hj; cbn. destruct (Nat.eqb_spec j b); [lia|]; destruct (Nat.eqb_spec j a); [lia|reflexivity].
Qed.

Lemma H_ext v w n : (forall j, 1 <= j <= n -> v j = w j) -> H lt v n -> H lt w n.
Proof.
  intros E [H1 H2]; split; intros j Hj; unfold P.
  - rewrite <- !E by lia. apply H1; lia.
  - rewrite <- !E by lia. apply H2; lia.
Qed.
Lemma BU_ext v w n k : (forall j, v j = w j) -> BU lt v n k -> BU lt w n k.
Proof.
  intros E [B1 B2 B3]; split; intros; unfold P; rewrite <- !E; [apply B1|apply B2|apply B3]; assumption.
Qed.

(** bubble-up *)
Lemma bubble_up_rec_ok n N : n <= N -> forall fuel k s, k <= fuel -> 1 <= k <= n -> good s N -> BU lt (val s) n k ->
  exists s', bubble_up_rec fuel (rel lt (min_node k)) s k = Ok s' /\ rearr N s s' /\ H lt (val s') n.
Proof.
  intros HN; induction fuel as [|fuel IH]; intros k s Hf Hk G B; [lia|].
  cbn [bubble_up_rec]. destruct (Nat.ltb_spec 3 k) as [K|K].
  - rewrite (sget_val s N), (sget_val s N) by (assumption || lia). cbn [bind].
    destruct (rel lt (min_node k) (val s (k / 4)) (val s k)) eqn:E.
    + exists s; split; [reflexivity|]; split; [apply rearr_refl, G|].
      apply (BU_stop lt (val s) n k B). intros _. apply (rel_le lt WO), E.
    + destruct (swap_ok s N (k / 4) k G) as (s1 & E1 & R1 & V1); [lia|lia|].
      rewrite E1; cbn [bind].
      assert (B' : BU lt (val s1) n (k / 4)).
      { eapply BU_ext; [symmetry; apply V1|]. apply (BU_step lt WO); [lia|exact B|exact E]. }
      destruct (IH (k / 4) s1) as (s2 & E2 & R2 & H2); [lia|lia|apply R1|exact B'|].
      rewrite <- (min_node_quarter k) by lia.
      exists s2; split; [exact E2|]; split; [eapply rearr_trans; eassumption|exact H2].
  - exists s; split; [reflexivity|]; split; [apply rearr_refl, G|].
    apply (BU_stop lt (val s) n k B). lia.
Qed.
Lemma bubble_up_ok s N k : good s N -> 2 <= k <= N -> H lt (val s) (k - 1) ->
  exists s', bubble_up lt s k = Ok s' /\ rearr N s s' /\ H lt (val s') k.
Proof.
  intros G Hk Hh. unfold bubble_up.
  rewrite (sget_val s N), (sget_val s N) by (assumption || lia). cbn [bind].
  assert (Go : forall m, m = min_node (k / 2) -> exists s',
    (if rel lt m (val s (k / 2)) (val s k) then bubble_up_rec k (rel lt (negb m)) s k
     else do s1 <- swap s (k / 2) k; bubble_up_rec k (rel lt m) s1 (k / 2)) = Ok s' /\ rearr N s s' /\ H lt (val s') k).
  { intros m Em. destruct (rel lt m (val s (k / 2)) (val s k)) eqn:E.
    - assert (Ek : negb m = min_node k).
      { rewrite Em, min_node_half, negb_involutive by lia; reflexivity. }
      rewrite Ek. apply bubble_up_rec_ok; [lia|lia|lia|exact G|].
      apply BU_stay; [lia|exact Hh|]. rewrite <- Em. apply (rel_le lt WO), E.
    - destruct (swap_ok s N (k / 2) k G) as (s1 & E1 & R1 & V1); [lia|lia|].
      rewrite E1; cbn [bind].
      destruct (bubble_up_rec_ok k N ltac:(lia) k (k / 2) s1) as (s2 & E2 & R2 & H2); [lia|lia|apply R1| |].
      { eapply BU_ext; [symmetry; apply V1|]. apply (BU_swap lt WO); [lia|exact Hh|]. rewrite <- Em; exact E. }
      rewrite Em. exists s2; split; [exact E2|]; split; [eapply rearr_trans; eassumption|exact H2]. }
  specialize (Go _ eq_refl). destruct (min_node (k / 2)); exact Go.
Qed.
Lemma heapify_loop_ok N : forall n i s, 2 <= i -> i + n <= S N -> good s N -> H lt (val s) (i - 1) ->
  exists s', heapify_loop lt n i s = Ok s' /\ rearr N s s' /\ H lt (val s') (i + n - 1).
Proof.
  induction n as [|n IH]; intros i s Hi HN G Hh; cbn [heapify_loop].
  - exists s; split; [reflexivity|]; split; [apply rearr_refl, G|]. replace (i + 0 - 1) with (i - 1) by lia; exact Hh.
  - destruct (bubble_up_ok s N i G) as (s1 & E1 & R1 & H1); [lia|exact Hh|].
    rewrite E1; cbn [bind].
    destruct (IH (S i) s1) as (s2 & E2 & R2 & H2); [lia|lia|apply R1| |].
    { replace (S i - 1) with i by lia; exact H1. }
    exists s2; split; [exact E2|]; split; [eapply rearr_trans; eassumption|].
    replace (i + S n - 1) with (S i + n - 1) by lia; exact H2.
Qed.
Lemma heapify_ok s size : good s size ->
  exists s', heapify lt s size = Ok s' /\ rearr size s s' /\ H lt (val s') size.
Proof.
  intros G. unfold heapify.
  assert (H1 : forall v, H lt v 1) by (intros v; split; intros j Hj; lia).
  destruct (le_lt_dec size 1) as [L|L].
  - replace (size - 1) with 0 by lia; cbn [heapify_loop].
    exists s; split; [reflexivity|]; split; [apply rearr_refl, G|].
    split; intros j Hj; lia.
  - destruct (heapify_loop_ok size (size - 1) 2 s) as (s2 & E2 & R2 & H2); [lia|lia|exact G|apply H1|].
    exists s2; split; [exact E2|]; split; [exact R2|]. replace size with (2 + (size - 1) - 1) by lia; exact H2.
Qed.

(** trickle-down *)
Lemma desc_cases i c : 1 <= i -> desc i c <-> exists k, k < 6 /\ c = descendant k i.
Proof.
  intros Hi; unfold desc, descendant; split.
  - intros [D|D].
    + exists (c - 2 * i). destruct (Nat.ltb_spec (c - 2 * i) 2); lia.
    + exists (c - 4 * i + 2). destruct (Nat.ltb_spec (c - 4 * i + 2) 2); lia.
  - intros (k & Hk & ->). destruct (Nat.ltb_spec k 2); [left|right]; lia.
Qed.
Lemma find_extreme_loop_ok m s n i : good s n -> 1 <= i ->
  forall k b p, k <= 6 ->
    (b = val s p) -> (p = i \/ desc i p /\ p <= n) -> le lt m b (val s i) ->
    (forall j, j < 6 - k -> descendant j i <= n -> le lt m b (val s (descendant j i))) ->
    exists q, find_extreme_loop k (rel lt m) s i (n + 1) b p = Ok q /\ (q = i \/ desc i q /\ q <= n) /\
      le lt m (val s q) (val s i) /\ forall c, 2 <= c <= n -> desc i c -> le lt m (val s q) (val s c).
Proof.
  intros G Hi; induction k as [|k IH]; intros b p Hk Eb Hp Lb La; cbn [find_extreme_loop].
  - exists p; split; [reflexivity|]; split; [exact Hp|]. rewrite <- Eb; split; [exact Lb|].
    intros c Hc D. apply (desc_cases i c Hi) in D. destruct D as (j & Hj & ->). apply La; lia.
  - replace (6 - S k) with (5 - k) in * by lia.
    assert (Mono : forall a b, a <= b -> b < 6 -> descendant a i <= descendant b i).
    { intros a b' H1 H2; unfold descendant; destruct (Nat.ltb_spec a 2), (Nat.ltb_spec b' 2); lia. }
    destruct (Nat.ltb_spec (descendant (5 - k) i) (n + 1)) as [L|L].
    + assert (D1 : 1 <= descendant (5 - k) i) by (unfold descendant; destruct (5 - k <? 2); lia).
      rewrite (sget_val s n) by (assumption || lia). cbn [bind].
      destruct (rel lt m (val s (descendant (5 - k) i)) b) eqn:E.
      * apply (rel_le lt WO) in E.
        apply IH; [lia|reflexivity| |eapply (le_trans lt WO); eassumption|].
        -- right; split; [|lia]. apply desc_cases; [exact Hi|]. exists (5 - k); split; [lia|reflexivity].
        -- intros j Hj HD. destruct (Nat.eq_dec j (5 - k)) as [->|N]; [apply (le_refl lt WO)|].
           eapply (le_trans lt WO); [exact E|]. apply La; [lia|exact HD].
      * apply IH; [lia|exact Eb|exact Hp|exact Lb|].
        intros j Hj HD. destruct (Nat.eq_dec j (5 - k)) as [->|N]; [exact E|]. apply La; [lia|exact HD].
    + exists p; split; [reflexivity|]; split; [exact Hp|]. rewrite <- Eb; split; [exact Lb|].
      intros c Hc D. apply (desc_cases i c Hi) in D. destruct D as (j & Hj & ->). apply La; [|lia].
      destruct (le_lt_dec (5 - k) j) as [HH|HH]; [|lia]. specialize (Mono _ _ HH Hj). lia.
Qed.
Lemma find_extreme_ok m s n i : good s n -> 1 <= i <= n ->
  exists q, find_extreme (rel lt m) s i (n + 1) = Ok q /\ (q = i \/ desc i q /\ q <= n) /\
      le lt m (val s q) (val s i) /\ forall c, 2 <= c <= n -> desc i c -> le lt m (val s q) (val s c).
Proof.
  intros G Hi; unfold find_extreme. rewrite (sget_val s n) by (assumption || lia). cbn [bind].
  apply find_extreme_loop_ok; [exact G|lia|lia|reflexivity|left; reflexivity|apply (le_refl lt WO)|].
  intros j Hj; lia.
Qed.
Lemma trickle_rec_ok n : forall fuel i s, n + 1 <= fuel + i -> 1 <= i <= n -> good s n -> TD lt (val s) n i ->
  exists s', trickle_rec fuel (rel lt (min_node i)) s i (n + 1) = Ok s' /\ rearr n s s' /\ H lt (val s') n.
Proof.
  induction fuel as [|fuel IH]; intros i s Hf Hi G T; [lia|].
  cbn [trickle_rec].
  destruct (find_extreme_ok (min_node i) s n i G Hi) as (q & Eq & Hq & Lq & La).
  rewrite Eq; cbn [bind].
  destruct (Nat.eqb_spec q i) as [->|N].
  - exists s; split; [reflexivity|]; split; [apply rearr_refl, G|].
    apply (TD_stop lt (val s) n i); [lia|exact T|exact La].
  - destruct Hq as [->|[D Qn]]; [tauto|].
    assert (Q1 : 1 <= q) by (destruct D; lia).
    destruct (swap_ok s n q i G) as (s1 & E1 & R1 & V1); [lia|lia|].
    rewrite E1; cbn [bind].
    destruct (Nat.leb_spec (4 * i) q) as [K|K].
    + assert (D4 : q / 4 = i) by (destruct D; lia).
      rewrite (sget_val s1 n), (sget_val s1 n) by (try apply R1; lia). cbn [bind].
      assert (Vi : val s1 i = val s q) by (rewrite V1, sw_r; reflexivity).
      assert (Vq : val s1 q = val s i) by (rewrite V1, sw_l; reflexivity).
      assert (Vp : val s1 (q / 2) = val s (q / 2)) by (rewrite V1, sw_o by lia; reflexivity).
      assert (Vo : forall j, j <> i -> j <> q -> val s1 j = val s j) by (intros; rewrite V1, sw_o by assumption; reflexivity).
      assert (M : min_node q = min_node i) by (rewrite <- D4; symmetry; apply min_node_quarter; lia).
      destruct (rel lt (min_node i) (val s1 q) (val s1 (q / 2))) eqn:E; cbn [bind].
      * assert (T' : TD lt (val s1) n q).
        { apply (TD_grand lt WO (val s) (val s1) n i q); try assumption; try lia.
          - intros; apply Vo; assumption.
          - left; split; assumption.
          - apply (rel_le lt WO), E. }
        destruct (IH q s1) as (s2 & E2 & R2 & H2); [lia|lia|apply R1|exact T'|].
        rewrite M in E2. exists s2; split; [exact E2|]; split; [eapply rearr_trans; eassumption|exact H2].
      * destruct (swap_ok s1 n (q / 2) q ltac:(apply R1)) as (s2 & E2 & R2 & V2); [lia|lia|].
        rewrite E2; cbn [bind].
        assert (T' : TD lt (val s2) n q).
        { apply (TD_grand lt WO (val s) (val s2) n i q); try assumption; try lia.
          - intros j J1 J2 J3. rewrite V2, sw_o by assumption. apply Vo; assumption.
          - rewrite V2, sw_o by lia. exact Vi.
          - right. rewrite !V2, sw_l, sw_r. split; [exact Vp|]; split; [exact Vq|].
            rewrite <- Vp, <- Vq. exact E.
          - rewrite !V2, sw_l, sw_r. exact E. }
        destruct (IH q s2) as (s3 & E3 & R3 & H3); [lia|lia|apply R2|exact T'|].
        rewrite M in E3. exists s3; split; [exact E3|]; split; [|exact H3].
        eapply rearr_trans; [exact R1|]. eapply rearr_trans; eassumption.
    + exists s1; split; [reflexivity|]; split; [exact R1|].
      eapply H_ext; [intros j _; symmetry; apply V1|].
      apply (TD_child lt WO); try assumption; [lia|]. destruct D; lia.
Qed.
Lemma trickle_down_ok s n i : good s n -> 1 <= i <= n -> TD lt (val s) n i ->
  exists s', trickle_down lt s i (n + 1) = Ok s' /\ rearr n s s' /\ H lt (val s') n.
Proof.
  intros G Hi T. unfold trickle_down. apply (trickle_rec_ok n (S (n + 1)) i s); try assumption. lia.
Qed.
Lemma trickle_down_out s i size x : 1 <= i -> size <= i -> sget s i = Ok x -> trickle_down lt s i size = Ok s.
Proof.
  intros I1 L E. unfold trickle_down; cbn [trickle_rec]. unfold find_extreme; rewrite E; cbn [bind find_extreme_loop].
  replace (descendant (6 - 6) i) with (2 * i) by (unfold descendant; cbn; lia).
  destruct (Nat.ltb_spec (2 * i) size); [lia|]. cbn [bind]. rewrite Nat.eqb_refl. reflexivity.
Qed.

(** heaps *)
Lemma valid_iff (h : heap A) : valid lt h <->
  1 <= next_leaf h /\ good (storage h) (next_leaf h - 1) /\ H lt (val (storage h)) (next_leaf h - 1).
Proof.
  assert (K : forall s p j, cells s p <> None -> cells s j <> None -> (node_ok lt s p j <-> P lt (val s) p j)).
  { intros s p j Hp Hj; unfold node_ok, P, le, rel, gt, val.
    destruct (cells s p); [|congruence]; destruct (cells s j); [|congruence].
    destruct (min_node p); tauto. }
  split.
  - intros [V1 V2 V3 V4 V5]; split; [exact V1|]. split.
    + intros i Hi; split; [|apply V2; lia].
      unfold in_limit. apply andb_true_intro; split; [apply Nat.leb_le; lia|].
      destruct (limit (storage h)); [apply Nat.leb_le; lia|reflexivity].
    + split; intros j Hj; apply K; try (apply V2; lia); [apply V4|apply V5]; lia.
  - intros (V1 & G & [H1 H2]); split.
    + exact V1.
    + intros i Hi; apply G; lia.
    + destruct (limit (storage h)) as [n|] eqn:E; [|exact Logic.I].
      destruct (le_lt_dec (next_leaf h - 1) 0) as [L|L]; [lia|].
      destruct (G (next_leaf h - 1)) as [G1 _]; [lia|]. unfold in_limit in G1; rewrite E in G1.
      apply andb_true_iff in G1; destruct G1 as [_ G1]; apply Nat.leb_le in G1; lia.
    + intros j Hj; apply K; [apply G; lia|apply G; lia|apply H1; lia].
    + intros j Hj; apply K; [apply G; lia|apply G; lia|apply H2; lia].
Qed.
(** what [holds] says about the storage *)
Lemma holds_iff h l : holds lt h l <->
  next_leaf h = S (length l) /\ good (storage h) (length l) /\ H lt (val (storage h)) (length l) /\
  Permutation (vals (storage h) (length l)) l.
Proof.
  unfold holds. rewrite valid_iff. split.
  - intros [(V1 & G & Hh) Pm]. rewrite elements_vals in Pm by exact G.
    pose proof (Permutation_length Pm) as L. unfold vals in L; rewrite map_length, seq_length in L.
    rewrite <- L. split; [lia|]; split; [exact G|]; split; [exact Hh|exact Pm].
  - intros (-> & G & Hh & Pm). replace (S (length l) - 1) with (length l) by lia.
    split; [split; [lia|]; split; assumption|]. rewrite elements_vals by exact G. exact Pm.
Qed.
End HeapP2.
