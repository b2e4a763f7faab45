From Coq Require Import List Bool ZArith Lia.
From Verif Require Import Outcome SkewModel SkewSpec SkewProofs.
Import ListNotations.
Local Open Scope Z_scope.
Ltac Zify.zify_post_hook ::= idtac.

Definition pw (k : Z) : Prop := exists j : nat, k = 2 ^ Z.of_nat (S j) - 1.
Definition sums (l : list Z) : Z := fold_right Z.add 0 l.
Definition canonw (l : list Z) : Prop := match l with a :: b :: r => a <= b /\ increasing (b :: r) | _ => True end.

Lemma pw_pos k : pw k -> 1 <= k.
Proof. intros [j ->]. rewrite Nat2Z.inj_succ, Z.pow_succ_r by lia. pose proof (Z.pow_pos_nonneg 2 (Z.of_nat j)). lia. Qed.
Lemma sums_app l l' : sums (l ++ l') = sums l + sums l'.
Proof. unfold sums. induction l; cbn [app fold_right] in *; lia. Qed.
Lemma sums_bound l : Forall pw l -> forall x, In x l -> x <= sums l.
Proof.
  induction 1 as [|a l P F IH]; intros x Hx; [destruct Hx|]; destruct Hx as [->|Hx].
  - cbn [sums fold_right]. assert (0 <= fold_right Z.add 0 l) by (clear - F; induction F as [|b l P]; cbn; [lia|apply pw_pos in P; lia]). lia.
  - apply pw_pos in P. specialize (IH _ Hx). unfold sums in *. cbn [fold_right]. lia.
Qed.
Lemma sums_only l x : Forall pw l -> In x l -> x = sums l -> l = [x].
Proof.
  intros F I E. destruct l as [|a [|b l]]; [destruct I| |].
  - destruct I as [->|[]]. reflexivity.
  - exfalso. pose proof (Forall_inv F) as Pa. pose proof (Forall_inv_tail F) as F'. pose proof (Forall_inv F') as Pb.
    apply pw_pos in Pa. pose proof (pw_pos _ Pb) as Pb'. destruct I as [->|I].
    + pose proof (sums_bound _ F' b ltac:(left; auto)). unfold sums in *. cbn [fold_right] in *. lia.
    + pose proof (sums_bound _ F' x I). unfold sums in *. cbn [fold_right] in *. lia.
Qed.
Lemma increasing_snoc l k : increasing l -> Forall (fun x => x < k) l -> increasing (l ++ [k]).
Proof.
  induction l as [|a l IH]; intros I F; [exact Logic.I|]. destruct l as [|b l].
  - cbn. split; [exact (Forall_inv F)|exact Logic.I].
  - cbn [app increasing] in *. destruct I. split; auto. apply IH; auto. exact (Forall_inv_tail F).
Qed.
Lemma canonw_snoc l k : canonw l -> Forall (fun x => x < k) l -> canonw (l ++ [k]).
Proof.
  intros C F. destruct l as [|a [|b l]]; cbn [app canonw] in *.
  - exact Logic.I.
  - split; [|exact Logic.I]. pose proof (Forall_inv F). cbn in H. lia.
  - destruct C as [? I]. split; auto. exact (increasing_snoc _ _ I (Forall_inv_tail F)).
Qed.

Lemma series_ok : forall f n, 0 <= n < Z.of_nat f ->
  exists s, series f n = Ok s /\ Forall pw s /\ sums (rev s) = n /\ canonw (rev s).
Proof.
  induction f as [|f IH]; intros n L; [lia|]. cbn [series].
  destruct (n =? 0) eqn:E0.
  { apply Z.eqb_eq in E0. subst. exists []. repeat split; auto. }
  destruct (n =? 1) eqn:E1.
  { apply Z.eqb_eq in E1. subst. exists [1]. split; [reflexivity|]. split; [constructor; [exists 0%nat; reflexivity|constructor]|]. split; reflexivity. }
  apply Z.eqb_neq in E0, E1. unfold integer_length. destruct (n + 1 =? 0) eqn:E2; [apply Z.eqb_eq in E2; lia|].
  replace (Z.log2 (n + 1) + 1 - 1) with (Z.log2 (n + 1)) by lia.
  pose proof (Z.log2_spec (n + 1) ltac:(lia)) as [La Lb]. assert (1 <= Z.log2 (n + 1)) as Lc by (apply Z.log2_le_pow2; lia).
  set (j := Z.log2 (n + 1)) in *. rewrite Z.pow_succ_r in Lb by lia.
  assert (pw (2 ^ j - 1)) as P. { exists (Z.to_nat (j - 1)). rewrite Nat2Z.inj_succ, Z2Nat.id by lia. do 2 f_equal. lia. }
  pose proof (pw_pos _ P). set (k := 2 ^ j - 1) in *.
  destruct (IH (n - k) ltac:(lia)) as (s & -> & F & S & C). cbn [bind].
  exists (k :: s). split; [reflexivity|]. split; [constructor; auto|]. cbn [rev]. split.
  { rewrite sums_app, S. cbn [sums fold_right]. lia. }
  assert (Forall pw (rev s)) as F' by (apply Forall_rev; exact F).
  destruct (in_dec Z.eq_dec k (rev s)) as [I|I].
  - pose proof (sums_bound _ F' _ I) as B. rewrite (sums_only _ _ F' I) by lia. cbn. split; [lia|exact Logic.I].
  - apply canonw_snoc; auto. apply Forall_forall. intros x Hx. pose proof (sums_bound _ F' _ Hx). assert (x <> k) by (intros ->; auto). lia.
Qed.

Lemma skipn_skipn {A} : forall x y (l : list A), skipn x (skipn y l) = skipn (x + y) l.
Proof.
  intros x y. revert x. induction y as [|y IH]; intros x l; [rewrite Nat.add_0_r; reflexivity|].
  rewrite Nat.add_succ_r. destruct l; [rewrite !skipn_nil; reflexivity|]. cbn [skipn]. apply IH.
Qed.

Section P.
Context {A : Type}.
Implicit Types (t : stree A) (sl : skew A).

Lemma make_tree_ok : forall j fuel (lis : list A), (j < fuel)%nat -> 2 ^ Z.of_nat (S j) - 1 <= Z.of_nat (length lis) ->
  exists t, make_tree fuel (2 ^ Z.of_nat (S j) - 1) lis = Ok (t, skipn (Z.to_nat (2 ^ Z.of_nat (S j) - 1)) lis)
    /\ complete (2 ^ Z.of_nat (S j) - 1) t /\ elems t = firstn (Z.to_nat (2 ^ Z.of_nat (S j) - 1)) lis.
Proof.
  induction j as [|j IH]; intros fuel lis F L.
  - destruct fuel as [|fuel]; [lia|]. change (2 ^ Z.of_nat 1 - 1) with 1 in *. destruct lis as [|x r]; [cbn in L; lia|].
    exists (Leaf x). repeat split.
  - destruct fuel as [|fuel]; [lia|]. rewrite (Nat2Z.inj_succ (S j)), Z.pow_succ_r in L |- * by lia.
    pose proof (pw_pos (2 ^ Z.of_nat (S j) - 1) ltac:(exists j; reflexivity)) as P.
    set (v := 2 ^ Z.of_nat (S j) - 1) in *. replace (2 * 2 ^ Z.of_nat (S j) - 1) with (2 * v + 1) in * by (unfold v; lia).
    destruct lis as [|x r]; cbn [length] in L; [lia|]. cbn [make_tree].
    destruct (2 * v + 1 =? 1) eqn:E; [apply Z.eqb_eq in E; lia|].
    replace ((2 * v + 1 - 1) / 2) with v by (replace (2 * v + 1 - 1) with (v * 2) by lia; rewrite Z.div_mul by lia; reflexivity).
    destruct (IH fuel r ltac:(lia) ltac:(lia)) as (t1 & -> & C1 & Q1). cbn [bind].
    destruct (IH fuel (skipn (Z.to_nat v) r) ltac:(lia)) as (t2 & -> & C2 & Q2). { rewrite skipn_length. lia. }
    cbn [bind]. exists (Node x t1 t2).
    assert (Z.to_nat (2 * v + 1) = S (Z.to_nat v + Z.to_nat v))%nat as EN by lia.
    split; [|split].
    + rewrite EN. cbn [skipn]. rewrite skipn_skipn. reflexivity.
    + exists v. auto.
    + rewrite EN. cbn [elems firstn]. rewrite Q1, Q2. f_equal.
      rewrite <- (firstn_skipn (Z.to_nat v) r) at 3. rewrite firstn_app, firstn_firstn, firstn_length.
      rewrite Nat.min_r by lia. do 2 f_equal. lia.
Qed.
Lemma pw_lt j : Z.of_nat j < 2 ^ Z.of_nat (S j) - 1 \/ j = O.
Proof.
  destruct j as [|j]; [auto|left]. rewrite (Nat2Z.inj_succ (S j)), Z.pow_succ_r by lia.
  pose proof (Z.pow_gt_lin_r 2 (Z.of_nat (S j)) ltac:(lia) ltac:(lia)). lia.
Qed.
Lemma make_forest_ok : forall ns (lis : list A), Forall pw ns -> sums ns <= Z.of_nat (length lis) ->
  exists f, make_forest ns lis = Ok (f, skipn (Z.to_nat (sums ns)) lis) /\ map fst f = ns /\ wf f /\ contents f = firstn (Z.to_nat (sums ns)) lis.
Proof.
  induction ns as [|n ns IH]; intros lis F L; cbn [make_forest].
  - exists []. repeat split. constructor.
  - pose proof (Forall_inv F) as P. pose proof (Forall_inv_tail F) as F'. pose proof (pw_pos _ P) as P1.
    assert (0 <= sums ns) by (clear - F'; induction F' as [|b l P]; cbn; [lia|apply pw_pos in P; unfold sums in IHF'; lia]).
    cbn [sums fold_right] in *. change (fold_right Z.add 0 ns) with (sums ns) in *.
    destruct P as [j ->]. destruct (make_tree_ok j (S (length lis)) lis) as (t & -> & C & Q). { pose proof (pw_lt j). lia. } { lia. }
    cbn [bind]. set (k := 2 ^ Z.of_nat (S j) - 1) in *.
    destruct (IH (skipn (Z.to_nat k) lis) F') as (f & -> & M & W & R). { rewrite skipn_length. lia. }
    cbn [bind]. exists ((k, t) :: f). replace (Z.to_nat (k + sums ns)) with (Z.to_nat k + Z.to_nat (sums ns))%nat by lia.
    split; [|split; [|split]].
    + rewrite skipn_skipn. do 3 f_equal. lia.
    + cbn [map fst]. rewrite M. reflexivity.
    + constructor; auto.
    + rewrite contents_cons, Q, R. rewrite <- (firstn_skipn (Z.to_nat k) lis) at 3. rewrite firstn_app, firstn_firstn, firstn_length.
      rewrite Nat.min_r by lia. do 2 f_equal. lia.
Qed.
Lemma list_to_skew_ok (l : list A) : exists sl, list_to_skew l = Ok sl /\ holds sl l.
Proof.
  unfold list_to_skew. destruct (series_ok (S (length l)) (Z.of_nat (length l)) ltac:(lia)) as (s & -> & F & S & C). cbn [bind].
  destruct (make_forest_ok (rev s) l) as (f & -> & M & W & R). { apply Forall_rev; exact F. } { lia. }
  cbn [bind]. exists f. split; [reflexivity|]. split; [split; [exact W|]|].
  - rewrite M. exact C.
  - rewrite R, S, firstn_all2 by lia. reflexivity.
Qed.

(** the iterator *)
Definition pending (stack : list (stree A)) (seq : skew A) : list A := concat (map elems stack) ++ contents seq.
Lemma iter_all_ok : forall fuel seq stack pos e, pos <= e -> (Z.to_nat (e - pos) + length seq < fuel)%nat ->
  iter_all fuel seq stack pos e =
    if Z.of_nat (length (pending stack seq)) <? e - pos then Err else Ok (firstn (Z.to_nat (e - pos)) (pending stack seq)).
Proof.
  induction fuel as [|fuel IH]; intros seq stack pos e L F; [lia|]. cbn [iter_all].
  destruct (pos =? e) eqn:E.
  - apply Z.eqb_eq in E. subst. replace (e - e) with 0 by lia. destruct (_ <? 0) eqn:E; [apply Z.ltb_lt in E; lia|]. reflexivity.
  - apply Z.eqb_neq in E. destruct stack as [|[x|x t1 t2] xs].
    + destruct seq as [|[w t] r].
      * cbn. destruct (0 <? e - pos) eqn:E2; auto. apply Z.ltb_ge in E2. lia.
      * cbn [length] in F. rewrite IH by lia.
        replace (pending [] ((w, t) :: r)) with (pending [t] r) by (unfold pending; cbn [map concat app]; rewrite app_nil_r; reflexivity).
        reflexivity.
    + rewrite IH by lia. unfold pending. cbn [map concat elems app length].
      replace (Z.to_nat (e - pos)) with (S (Z.to_nat (e - (pos + 1)))) by lia. cbn [firstn].
      set (q := concat (map elems xs) ++ contents seq). replace (Z.of_nat (S (length q)) <? e - pos) with (Z.of_nat (length q) <? e - (pos + 1)).
      2:{ destruct (Z.ltb_spec (Z.of_nat (length q)) (e - (pos + 1))), (Z.ltb_spec (Z.of_nat (S (length q))) (e - pos)); auto; lia. }
      destruct (_ <? _); reflexivity.
    + rewrite IH by lia. unfold pending. cbn [map concat elems app length].
      replace (Z.to_nat (e - pos)) with (S (Z.to_nat (e - (pos + 1)))) by lia. cbn [firstn]. rewrite <- !app_assoc.
      set (q := elems t1 ++ elems t2 ++ concat (map elems xs) ++ contents seq). replace (Z.of_nat (S (length q)) <? e - pos) with (Z.of_nat (length q) <? e - (pos + 1)).
      2:{ destruct (Z.ltb_spec (Z.of_nat (length q)) (e - (pos + 1))), (Z.ltb_spec (Z.of_nat (S (length q))) (e - pos)); auto; lia. }
      destruct (_ <? _); reflexivity.
Qed.
Lemma kth_and_after_ok t : forall n k tail, complete n t -> 0 <= k < n ->
  exists st, kth_and_after t n k tail = Ok st /\ concat (map elems st) = skipn (Z.to_nat k) (elems t) ++ concat (map elems tail).
Proof.
  induction t as [x|x t1 IH1 t2 IH2]; intros n k tail H L; cbn [complete kth_and_after] in *.
  - subst n. assert (k = 0) by lia. subst. cbn. eexists. split; reflexivity.
  - destruct H as (v & -> & H1 & H2). destruct (k =? 0) eqn:E.
    + apply Z.eqb_eq in E; subst. eexists. split; [reflexivity|]. reflexivity.
    + apply Z.eqb_neq in E. rewrite half_odd. pose proof (elems_length _ _ H1) as L1. destruct (k <=? v) eqn:E2.
      * apply Z.leb_le in E2. destruct (IH1 v (k - 1) (t2 :: tail) H1 ltac:(lia)) as (st & -> & Q). exists st. split; auto.
        rewrite Q. replace (Z.to_nat k) with (S (Z.to_nat (k - 1))) by lia. cbn [elems skipn map concat].
        rewrite skipn_app. replace (Z.to_nat (k - 1) - length (elems t1))%nat with O by lia. cbn [skipn]. rewrite <- app_assoc. reflexivity.
      * apply Z.leb_gt in E2. destruct (IH2 v (k - v - 1) tail H2 ltac:(lia)) as (st & -> & Q). exists st. split; auto.
        rewrite Q. replace (Z.to_nat k) with (S (Z.to_nat (k - 1))) by lia. cbn [elems skipn].
        rewrite skipn_app, (skipn_all2 (elems t1)) by lia. cbn [app]. do 2 f_equal. lia.
Qed.
Lemma skip_seq_ok sl : wf sl -> forall k, 0 <= k < Z.of_nat (length (contents sl)) ->
  exists w t r k', skip_seq sl k = Ok ((w, t) :: r, k') /\ complete w t /\ 0 <= k' < w /\ (length r < length sl)%nat /\
    skipn (Z.to_nat k) (contents sl) = skipn (Z.to_nat k') (elems t) ++ contents r.
Proof.
  induction sl as [|[w t] sl IH]; intros W k L; [cbn in L; lia|]. pose proof (Forall_inv W) as H. cbn [fst snd] in H. pose proof (elems_length _ _ H) as Le.
  rewrite contents_cons in *. rewrite app_length in L. cbn [skip_seq]. destruct (k <? w) eqn:E.
  - apply Z.ltb_lt in E. exists w, t, sl, k. split; [reflexivity|]. split; [exact H|]. split; [lia|]. split; [cbn; lia|].
    rewrite skipn_app. replace (Z.to_nat k - length (elems t))%nat with O by lia. reflexivity.
  - apply Z.ltb_ge in E. destruct (IH (Forall_inv_tail W) (k - w) ltac:(lia)) as (w' & t' & r & k' & -> & C & K & Ln & Q).
    exists w', t', r, k'. split; [reflexivity|]. split; [exact C|]. split; [exact K|]. split; [cbn; lia|].
    rewrite <- Q, skipn_app, (skipn_all2 (elems t)) by lia. cbn [app]. f_equal. lia.
Qed.
Lemma skip_seq_err sl : wf sl -> forall k, Z.of_nat (length (contents sl)) <= k -> skip_seq sl k = Err.
Proof.
  induction sl as [|[w t] sl IH]; intros W k L; [reflexivity|]. pose proof (Forall_inv W) as H. cbn [fst snd] in H. pose proof (elems_length _ _ H) as Le.
  rewrite contents_cons in *. rewrite app_length in L. cbn [skip_seq]. destruct (k <? w) eqn:E; [apply Z.ltb_lt in E; lia|].
  apply IH; [exact (Forall_inv_tail W)|lia].
Qed.
Lemma skew_to_lseq_ok sl s e : wf sl -> (s <= e <= length (contents sl))%nat -> (s < length (contents sl) \/ s = 0)%nat ->
  skew_to_lseq sl (Z.of_nat s) (Some (Z.of_nat e)) = Ok (sublist (contents sl) s e).
Proof.
  intros W L S. unfold skew_to_lseq, sublist. destruct (Z.of_nat s <=? Z.of_nat e) eqn:E; [|apply Z.leb_gt in E; lia]. cbn [negb].
  destruct (0 <? Z.of_nat s) eqn:E2.
  - apply Z.ltb_lt in E2. destruct (skip_seq_ok sl W (Z.of_nat s) ltac:(lia)) as (w & t & r & k' & -> & C & K & Ln & Q). cbn [bind].
    destruct (kth_and_after_ok t w k' [] C K) as (st & -> & Q2). cbn [bind].
    rewrite iter_all_ok by lia. replace (pending st r) with (skipn s (contents sl)).
    2:{ unfold pending. rewrite Q2. cbn [map concat]. rewrite app_nil_r, <- Q, Nat2Z.id. reflexivity. }
    rewrite skipn_length. destruct (_ <? _) eqn:E3; [apply Z.ltb_lt in E3; lia|]. do 2 f_equal. lia.
  - apply Z.ltb_ge in E2. assert (s = 0)%nat by lia. subst s. rewrite iter_all_ok by lia. unfold pending. cbn [map concat app].
    destruct (_ <? _) eqn:E3; [apply Z.ltb_lt in E3; lia|]. cbn [skipn]. do 2 f_equal. lia.
Qed.
Lemma skew_to_lseq_default sl s : wf sl -> skew_to_lseq sl s None = skew_to_lseq sl s (Some (Z.of_nat (length (contents sl)))).
Proof. intros W. unfold skew_to_lseq. rewrite skew_length_ok by exact W. reflexivity. Qed.
Lemma skew_to_lseq_err sl (s e : Z) : wf sl -> e < s \/ Z.of_nat (length (contents sl)) < e \/ (0 < s /\ Z.of_nat (length (contents sl)) <= s) ->
  0 <= s -> skew_to_lseq sl s (Some e) = Err.
Proof.
  intros W L P. unfold skew_to_lseq. destruct (s <=? e) eqn:E; [|reflexivity]. apply Z.leb_le in E. cbn [negb].
  destruct (0 <? s) eqn:E2.
  - apply Z.ltb_lt in E2. destruct (Z_lt_ge_dec s (Z.of_nat (length (contents sl)))) as [Ls|Ls].
    + destruct (skip_seq_ok sl W s ltac:(lia)) as (w & t & r & k' & -> & C & K & Ln & Q). cbn [bind].
      destruct (kth_and_after_ok t w k' [] C K) as (st & -> & Q2). cbn [bind]. rewrite iter_all_ok by lia.
      replace (pending st r) with (skipn (Z.to_nat s) (contents sl)) by (unfold pending; rewrite Q2; cbn [map concat]; rewrite app_nil_r, <- Q; reflexivity).
      rewrite skipn_length. destruct (_ <? _) eqn:E3; [reflexivity|apply Z.ltb_ge in E3; lia].
    + rewrite skip_seq_err by (auto; lia). reflexivity.
  - apply Z.ltb_ge in E2. assert (s = 0) by lia. subst. rewrite iter_all_ok by lia. unfold pending. cbn [map concat app].
    destruct (_ <? _) eqn:E3; [reflexivity|apply Z.ltb_ge in E3; lia].
Qed.
End P.
