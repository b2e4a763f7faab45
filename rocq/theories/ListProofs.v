From Coq Require Import List Bool ZArith Lia ListDec.
From Verif Require Import Outcome ListModel ListSpec.
Import ListNotations.
Ltac Zify.zify_post_hook ::= idtac.

Lemma val_eqb_eq : forall a b, val_eqb a b = true <-> a = b.
Proof.
  intros [|x|x] [|y|y]; cbn; split; intro H; try discriminate; auto.
  - apply Z.eqb_eq in H. now subst.
  - injection H as ->. apply Z.eqb_refl.
  - apply Nat.eqb_eq in H. now subst.
  - injection H as ->. apply Nat.eqb_refl.
Qed.
Lemma val_eqb_neq : forall a b, val_eqb a b = false <-> a <> b.
Proof.
  intros a b. rewrite <- val_eqb_eq. destruct (val_eqb a b); split; intro H; auto; congruence.
Qed.
Lemma pairp_iff : forall v, pairp v = true <-> is_pair v.
Proof. intros [|x|a]; cbn; split; intro H; try discriminate; eauto; try destruct H; try discriminate. exists a; auto. Qed.
Lemma pairp_false : forall v, pairp v = false <-> ~ is_pair v.
Proof. intros v. rewrite <- pairp_iff. destruct (pairp v); split; intro H; auto; congruence. Qed.

(** ** the sequence of successive cdrs *)
Fixpoint ncdr (h : heap) (n : nat) (v : val) : val :=
  match n with
  | O => v
  | S m => match v with
           | Ptr a => match nth_error h a with Some (_, d) => ncdr h m d | None => Nil end
           | _ => Nil
           end
  end.
Lemma ncdr_S : forall h n v, ncdr h (S n) v = ncdr h 1 (ncdr h n v).
Proof.
  induction n; intros; [reflexivity|]. change (ncdr h (S n) v) with (ncdr h (S n) v). cbn [ncdr].
  destruct v as [|z|a]; try (destruct n; reflexivity).
  destruct (nth_error h a) as [[x d]|]; [apply IHn|reflexivity].
Qed.
Lemma ncdr_add : forall h n m v, ncdr h (n + m) v = ncdr h n (ncdr h m v).
Proof. induction n; intros; auto. rewrite Nat.add_succ_l, ncdr_S, IHn, <- ncdr_S. reflexivity. Qed.

Lemma closed_cell : forall h a, closed h -> a < length h -> exists x d, nth_error h a = Some (x, d) /\ in_heap h x /\ in_heap h d.
Proof.
  intros h a C L. destruct (nth_error h a) as [[x d]|] eqn:E; [|apply nth_error_None in E; lia].
  exists x, d. split; auto. unfold closed in C. rewrite Forall_forall in C. apply nth_error_In in E. apply (C _ E).
Qed.
Lemma ncdr_in : forall h n v, closed h -> in_heap h v -> in_heap h (ncdr h n v).
Proof.
  induction n; intros v C I; auto. cbn [ncdr]. destruct v as [|z|a]; try exact Logic.I.
  destruct (closed_cell h a C I) as (x & d & E & _ & Id). rewrite E. auto.
Qed.
(** a heap in which the old cells are intact still gives the same cdrs *)
Lemma cdr_ncdr : forall h h' v n, closed h -> in_heap h v -> preserved h h' -> pairp (ncdr h n v) = true ->
  cdr h' (ncdr h n v) = Ok (ncdr h (S n) v).
Proof.
  intros h h' v n C I P Hp. pose proof (ncdr_in h n v C I) as In. rewrite ncdr_S.
  destruct (ncdr h n v) as [|z|a]; try discriminate. cbn in In.
  unfold cdr, cell. rewrite (P a In). destruct (closed_cell h a C In) as (x & d & E & _). rewrite E. cbn. now rewrite E.
Qed.
Lemma preserved_refl : forall h, preserved h h.
Proof. intros h a _. reflexivity. Qed.
Lemma preserved_trans : forall h h1 h2, length h <= length h1 -> preserved h h1 -> preserved h1 h2 -> preserved h h2.
Proof. intros h h1 h2 L P1 P2 a Ha. rewrite P2 by lia. now apply P1. Qed.
Lemma preserved_len : forall h h', preserved h h' -> length h <= length h'.
Proof.
  intros h h' P. destruct (le_lt_dec (length h) (length h')); auto. exfalso.
  specialize (P (length h') l). assert (nth_error h' (length h') = None) by (apply nth_error_None; auto).
  assert (nth_error h (length h') <> None) by (apply nth_error_Some; auto). congruence.
Qed.

(** ** seg and the cdr sequence *)
Lemma seg_ncdr : forall h v addrs xs w, seg h v addrs xs w -> ncdr h (length addrs) v = w.
Proof. induction 1; cbn [length ncdr]; auto. now rewrite H. Qed.
Lemma seg_len : forall h v addrs xs w, seg h v addrs xs w -> length addrs = length xs.
Proof. induction 1; cbn; auto. Qed.
Lemma seg_app : forall h v a1 x1 w a2 x2 u, seg h v a1 x1 w -> seg h w a2 x2 u -> seg h v (a1 ++ a2) (x1 ++ x2) u.
Proof. induction 1; intros; cbn; auto. econstructor; eauto. Qed.
Lemma seg_app_inv : forall h a1 v x1 a2 x2 u, length a1 = length x1 -> seg h v (a1 ++ a2) (x1 ++ x2) u ->
  exists w, seg h v a1 x1 w /\ seg h w a2 x2 u.
Proof.
  induction a1 as [|a a1 IH]; intros v [|x x1] a2 x2 u L H; try discriminate.
  - exists v. split; [constructor|auto].
  - cbn in H. inversion H; subst. injection L as L. destruct (IH _ _ _ _ _ L H7) as (w & S1 & S2).
    exists w. split; auto. econstructor; eauto.
Qed.
Lemma seg_nth : forall h v addrs xs w, seg h v addrs xs w -> forall k a, nth_error addrs k = Some a -> ncdr h k v = Ptr a.
Proof.
  induction 1; intros k b Hk; [destruct k; discriminate|]. destruct k as [|k]; cbn in Hk.
  - injection Hk as <-. reflexivity.
  - cbn [ncdr]. rewrite H. eauto.
Qed.
Lemma seg_pair : forall h v addrs xs w k, seg h v addrs xs w -> k < length addrs -> pairp (ncdr h k v) = true.
Proof.
  intros h v addrs xs w k S L. destruct (nth_error addrs k) eqn:E; [|apply nth_error_None in E; lia].
  now rewrite (seg_nth _ _ _ _ _ S _ _ E).
Qed.
Lemma seg_build : forall h n v, closed h -> in_heap h v -> (forall k, k < n -> pairp (ncdr h k v) = true) ->
  exists addrs xs, length addrs = n /\ seg h v addrs xs (ncdr h n v).
Proof.
  induction n; intros v C I H.
  - exists [], []. split; auto. constructor.
  - pose proof (H 0 ltac:(lia)) as H0. cbn in H0. destruct v as [|z|a]; try discriminate.
    destruct (closed_cell h a C I) as (x & d & E & _ & Id).
    destruct (IHn d C Id) as (addrs & xs & L & S).
    { intros k Hk. specialize (H (S k) ltac:(lia)). cbn [ncdr] in H. now rewrite E in H. }
    exists (a :: addrs), (x :: xs). split; [cbn; lia|]. cbn [ncdr]. rewrite E. econstructor; eauto.
Qed.

(** ** finite or circular *)
Lemma period : forall h v i j n, ncdr h i v = ncdr h j v -> i <= j -> i <= n -> ncdr h n v = ncdr h (n + (j - i)) v.
Proof.
  intros h v i j n E L1 L2. replace n with ((n - i) + i) at 1 by lia. rewrite ncdr_add, E, <- ncdr_add. f_equal. lia.
Qed.
Lemma period_mul : forall h v i j n k, ncdr h i v = ncdr h j v -> i <= j -> i <= n -> ncdr h n v = ncdr h (n + k * (j - i)) v.
Proof.
  intros h v i j n k E L1 L2. induction k; [f_equal; lia|].
  rewrite IHk. rewrite (period h v i j) by (auto; lia). f_equal. lia.
Qed.
(** distinct up to the end of a finite list *)
Lemma finite_distinct : forall h v n i j, (forall k, k < n -> pairp (ncdr h k v) = true) -> pairp (ncdr h n v) = false ->
  i < j -> j <= n -> ncdr h i v <> ncdr h j v.
Proof.
  intros h v n i j H1 H2 L1 L2 E.
  assert (X : ncdr h (n - (j - i)) v = ncdr h n v) by (rewrite (period h v i j (n - (j - i))); auto; try lia; f_equal; lia).
  rewrite <- X in H2. rewrite H1 in H2 by lia. discriminate.
Qed.

(** pigeonhole *)
Lemma pigeon : forall n (f : nat -> nat), (forall k, k <= n -> f k < n) -> exists i j, i < j /\ j <= n /\ f i = f j.
Proof.
  intros n f H.
  destruct (ListDec.NoDup_dec Nat.eq_dec (map f (seq 0 (S n)))) as [N|N].
  - exfalso. assert (Hin : incl (map f (seq 0 (S n))) (seq 0 n)).
    { intros x Hx. apply in_map_iff in Hx. destruct Hx as (k & <- & Hk). apply in_seq in Hk. apply in_seq. specialize (H k ltac:(lia)). lia. }
    apply NoDup_incl_length in Hin; auto. rewrite map_length, !seq_length in Hin. lia.
  - assert (D : forall l : list nat, ~ NoDup l -> exists i j, i < j /\ j < length l /\ nth i l 0 = nth j l 0).
    { induction l as [|x l IH]; intro Hn; [exfalso; apply Hn; constructor|].
      destruct (in_dec Nat.eq_dec x l) as [Hi|Hi].
      - apply (In_nth _ _ 0) in Hi. destruct Hi as (k & Hk & E). exists 0, (S k). cbn. split; [lia|]. split; [lia|auto].
      - destruct IH as (i & j & A & B & E).
        { intro. apply Hn. constructor; auto. }
        exists (S i), (S j). cbn. split; [lia|]. split; [lia|auto]. }
    apply D in N. destruct N as (i & j & A & B & E). rewrite map_length, seq_length in B.
    exists i, j. split; auto. split; [lia|].
    rewrite !(nth_indep (map f (seq 0 (S n))) 0 (f 0)) in E by (rewrite map_length, seq_length; lia).
    rewrite !map_nth, !seq_nth in E by lia. exact E.
Qed.

Definition addr (v : val) : nat := match v with Ptr a => a | _ => 0 end.
Lemma repeat_within : forall h v, closed h -> in_heap h v -> (forall k, k <= length h -> pairp (ncdr h k v) = true) ->
  exists i j, i < j /\ j <= length h /\ ncdr h i v = ncdr h j v.
Proof.
  intros h v C I H. destruct (pigeon (length h) (fun k => addr (ncdr h k v))) as (i & j & A & B & E).
  { intros k Hk. specialize (H k Hk). pose proof (ncdr_in h k v C I) as X. destruct (ncdr h k v); try discriminate. exact X. }
  exists i, j. split; auto. split; auto.
  pose proof (H i ltac:(lia)) as Hi. pose proof (H j ltac:(lia)) as Hj.
  destruct (ncdr h i v), (ncdr h j v); try discriminate. cbn in E. now subst.
Qed.
Definition finite (h : heap) (v : val) (n : nat) : Prop :=
  (forall k, k < n -> pairp (ncdr h k v) = true) /\ pairp (ncdr h n v) = false.
Definition endless (h : heap) (v : val) : Prop := forall k, pairp (ncdr h k v) = true.

Lemma endless_of_repeat : forall h v i j, ncdr h i v = ncdr h j v -> i < j -> (forall k, k <= j -> pairp (ncdr h k v) = true) -> endless h v.
Proof.
  intros h v i j E L H k.
  destruct (le_lt_dec i k) as [Hk|Hk]; [|apply H; lia].
  assert (X : ncdr h k v = ncdr h (i + (k - i) mod (j - i)) v).
  { pose proof (Nat.div_mod (k - i) (j - i) ltac:(lia)) as D.
    rewrite (period_mul h v i j (i + (k - i) mod (j - i)) ((k - i) / (j - i))) by (auto; lia). f_equal.
    rewrite Nat.mul_comm. lia. }
  rewrite X. apply H. pose proof (Nat.mod_upper_bound (k - i) (j - i) ltac:(lia)). lia.
Qed.

Lemma finite_or_endless : forall h v, closed h -> in_heap h v -> (exists n, n <= length h /\ finite h v n) \/ endless h v.
Proof.
  intros h v C I.
  assert (X : forall m, (exists n, n <= m /\ finite h v n) \/ (forall k, k <= m -> pairp (ncdr h k v) = true)).
  { induction m as [|m [(n & L & F)|H]].
    - destruct (pairp (ncdr h 0 v)) eqn:E; [right|left].
      + intros k Hk. replace k with 0 by lia. exact E.
      + exists 0. split; auto. split; auto. intros; lia.
    - left. exists n. split; auto.
    - destruct (pairp (ncdr h (S m) v)) eqn:E; [right|left].
      + intros k Hk. destruct (Nat.eq_dec k (S m)) as [->|]; auto. apply H. lia.
      + exists (S m). split; auto. split; auto. intros k Hk. apply H. lia. }
  destruct (X (length h)) as [F|H]; [left; exact F|right].
  destruct (repeat_within h v C I H) as (i & j & A & B & E). eapply endless_of_repeat; eauto. intros; apply H; lia.
Qed.
Lemma finite_not_endless : forall h v n, finite h v n -> endless h v -> False.
Proof. intros h v n [_ F] E. rewrite (E n) in F. discriminate. Qed.
Lemma finite_unique : forall h v n m, finite h v n -> finite h v m -> n = m.
Proof.
  intros h v n m [H1 H2] [H3 H4]. destruct (lt_eq_lt_dec n m) as [[L|]|L]; auto; exfalso.
  - rewrite H3 in H2; auto; discriminate.
  - rewrite H1 in H4; auto; discriminate.
Qed.

Lemma circular_endless : forall h v, closed h -> in_heap h v -> (circular h v <-> endless h v).
Proof.
  intros h v C I. split.
  - intros H k. destruct (H k) as (addrs & xs & a & L & S). rewrite <- L, (seg_ncdr _ _ _ _ _ S). reflexivity.
  - intros H n. destruct (seg_build h n v C I) as (addrs & xs & L & S); [intros; apply H|].
    pose proof (H n) as Hn. destruct (ncdr h n v) as [|z|a] eqn:E; try discriminate. eauto.
Qed.
Lemma list_of_finite : forall h v xs t, list_of h v xs t -> finite h v (length xs) /\ ncdr h (length xs) v = t.
Proof.
  intros h v xs t [Ht (addrs & S)]. pose proof (seg_ncdr _ _ _ _ _ S) as E. rewrite (seg_len _ _ _ _ _ S) in E.
  split; auto. split.
  - intros k Hk. eapply seg_pair; eauto. rewrite (seg_len _ _ _ _ _ S). exact Hk.
  - rewrite E. now apply pairp_false.
Qed.
Lemma finite_list_of : forall h v n, closed h -> in_heap h v -> finite h v n -> exists xs, list_of h v xs (ncdr h n v) /\ length xs = n.
Proof.
  intros h v n C I [H1 H2]. destruct (seg_build h n v C I H1) as (addrs & xs & L & S).
  exists xs. split.
  - split; [now apply pairp_false|eauto].
  - now rewrite <- (seg_len _ _ _ _ _ S).
Qed.
Lemma list_of_in_heap : forall h v xs t, list_of h v xs t -> in_heap h v.
Proof.
  intros h v xs t [Ht (addrs & S)]. inversion S; subst.
  - destruct t; cbn; auto. exfalso. apply Ht. eexists; eauto.
  - cbn. apply nth_error_Some. congruence.
Qed.

(** the hare meets the tortoise *)
Lemma meet : forall h v, closed h -> in_heap h v -> endless h v ->
  exists m, 1 <= m /\ m <= length h /\ ncdr h (2 * m) v = ncdr h m v.
Proof.
  intros h v C I H. destruct (repeat_within h v C I) as (i & j & A & B & E); [intros; apply H|].
  set (lam := j - i). assert (Hl : 1 <= lam) by (unfold lam; lia).
  pose proof (Nat.div_mod (i + lam - 1) lam ltac:(lia)) as D.
  pose proof (Nat.mod_upper_bound (i + lam - 1) lam ltac:(lia)) as U.
  set (q := (i + lam - 1) / lam) in *.
  assert (Q : exists q', 1 <= q' /\ i <= q' * lam <= j).
  { destruct (Nat.eq_dec i 0) as [->|].
    - exists 1. unfold lam. lia.
    - exists q. unfold lam in *. nia. }
  destruct Q as (q' & Hq1 & Hq2). exists (q' * lam). split; [nia|]. split; [lia|].
  symmetry. rewrite (period_mul h v i j (q' * lam) q') by (auto; lia). f_equal. fold lam. lia.
Qed.
Lemma meet_only_endless : forall h v n i, finite h v n -> 1 <= i -> 2 * i <= n -> ncdr h (2 * i) v <> ncdr h i v.
Proof. intros h v n i [H1 H2] A B E. eapply (finite_distinct h v n i (2 * i)); eauto; lia. Qed.
