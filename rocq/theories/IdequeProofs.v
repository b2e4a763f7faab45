From Coq Require Import List Bool Arith Lia.
From Verif Require Import Outcome IdequeModel IdequeSpec.
Import ListNotations.
Ltac Zify.zify_post_hook ::= idtac.

Section P.
Context {A : Type}.
Implicit Types (d : dq A) (l : list A).

Lemma div2_le n : n / 2 * 2 <= n < n / 2 * 2 + 2.
Proof. pose proof (Nat.div_mod n 2 ltac:(lia)). pose proof (Nat.mod_upper_bound n 2 ltac:(lia)). lia. Qed.

Lemma check_ok (a b : list A) : gives (check (length a) a (length b) b) (a ++ rev b).
Proof.
  unfold check, C, gives. destruct (length b * 3 + 1 <? length a) eqn:E1; [apply Nat.ltb_lt in E1|apply Nat.ltb_ge in E1].
  - pose proof (div2_le (length a + length b)) as D. set (i := (length a + length b) / 2) in *.
    unfold take, drop. destruct (i <=? length a) eqn:E; [apply Nat.leb_le in E|apply Nat.leb_gt in E; lia]. cbn [bind].
    eexists. split; [reflexivity|]. unfold holds. cbn [lenf f lenr r]. rewrite app_length, rev_length, firstn_length, skipn_length.
    repeat split; try lia. rewrite rev_app_distr, rev_involutive, app_assoc, firstn_skipn. reflexivity.
  - destruct (length a * 3 + 1 <? length b) eqn:E2; [apply Nat.ltb_lt in E2|apply Nat.ltb_ge in E2].
    + pose proof (div2_le (length a + length b)) as D. set (i := (length a + length b) / 2) in *.
      unfold take, drop. destruct (i <=? length b) eqn:E; [apply Nat.leb_le in E|apply Nat.leb_gt in E; lia]. cbn [bind].
      eexists. split; [reflexivity|]. unfold holds. cbn [lenf f lenr r]. rewrite app_length, rev_length, firstn_length, skipn_length.
      repeat split; try lia. rewrite <- app_assoc, <- rev_app_distr, firstn_skipn. reflexivity.
    + eexists. split; [reflexivity|]. unfold holds. cbn [lenf f lenr r]. repeat split; lia.
Qed.
Lemma check_gives n m (a b : list A) l : n = length a -> m = length b -> l = a ++ rev b -> gives (check n a m b) l.
Proof. intros -> -> ->. apply check_ok. Qed.

Lemma empty_holds : holds (@empty A) [].
Proof. repeat split; cbn; lia. Qed.
Lemma list_to_ideque_ok l : gives (list_to_ideque l) l.
Proof. unfold list_to_ideque. apply check_gives; auto. cbn. rewrite app_nil_r. reflexivity. Qed.
Lemma to_list_ok d l : holds d l -> ideque_to_list d = l.
Proof. intros H. symmetry. apply H. Qed.
Lemma length_ok d l : holds d l -> ideque_length d = length l.
Proof. intros (E1 & E2 & _ & _ & ->). unfold ideque_length. rewrite app_length, rev_length. lia. Qed.
Lemma empty_ok d l : holds d l -> ideque_empty d = match l with [] => true | _ => false end.
Proof.
  intros H. pose proof (length_ok _ _ H) as L. unfold ideque_length in L. unfold ideque_empty. destruct l; cbn [length] in L.
  - replace (lenf d) with 0 by lia. replace (lenr d) with 0 by lia. reflexivity.
  - destruct (lenf d), (lenr d); auto; lia.
Qed.
Lemma add_front_ok d l x : holds d l -> gives (ideque_add_front d x) (x :: l).
Proof. intros (E1 & E2 & _ & _ & ->). apply check_gives; cbn [length app]; auto; lia. Qed.
Lemma add_back_ok d l x : holds d l -> gives (ideque_add_back d x) (l ++ [x]).
Proof. intros (E1 & E2 & _ & _ & ->). apply check_gives; cbn [length rev]; auto; try lia. rewrite app_assoc. reflexivity. Qed.
Lemma reverse_ok d l : holds d l -> holds (ideque_reverse d) (rev l).
Proof.
  intros H. unfold ideque_reverse. rewrite (empty_ok _ _ H). destruct l as [|x l]; [apply empty_holds|].
  destruct H as (E1 & E2 & I1 & I2 & ->). unfold holds. cbn [lenf f lenr r]. repeat split; auto.
  rewrite rev_app_distr, rev_involutive. reflexivity.
Qed.
Lemma front_ok d l : holds d l -> ideque_front d = match l with [] => Err | x :: _ => Ok x end.
Proof.
  intros H. destruct H as (E1 & E2 & I1 & I2 & ->). unfold ideque_front.
  destruct (f d) as [|x f1] eqn:Ef; cbn [length] in E1; rewrite E1.
  - cbn [Nat.eqb app]. rewrite E1 in *. destruct (r d) as [|y [|z s]] eqn:Er; cbn [length] in E2; rewrite E2; [reflexivity|reflexivity|lia].
  - reflexivity.
Qed.
Lemma remove_front_ok d l : holds d l -> match l with [] => ideque_remove_front d = Err | _ :: s => gives (ideque_remove_front d) s end.
Proof.
  intros H. destruct H as (E1 & E2 & I1 & I2 & ->). unfold ideque_remove_front.
  destruct (f d) as [|x f1] eqn:Ef; cbn [length] in E1; rewrite E1.
  - cbn [Nat.eqb app]. rewrite E1 in *. destruct (r d) as [|y [|z s]] eqn:Er; cbn [length] in E2; rewrite E2; [reflexivity| |lia].
    cbn. eexists. split; [reflexivity|apply empty_holds].
  - cbn [Nat.eqb app cdr bind]. apply check_gives; auto. lia.
Qed.
Lemma back_ok d l : holds d l -> ideque_back d = match rev l with [] => Err | x :: _ => Ok x end.
Proof.
  intros H. pose proof (front_ok _ _ (reverse_ok _ _ H)) as F. rewrite <- F. unfold ideque_back, ideque_front, ideque_reverse, ideque_empty.
  destruct (lenf d =? 0) eqn:Ef; destruct (lenr d =? 0) eqn:Er; cbn [andb]; cbn [lenf lenr f r empty]; rewrite ?Ef, ?Er; cbn; auto.
Qed.
Lemma remove_back_ok d l : holds d l -> match rev l with [] => ideque_remove_back d = Err | _ :: s => gives (ideque_remove_back d) (rev s) end.
Proof.
  intros H. destruct H as (E1 & E2 & I1 & I2 & ->). unfold ideque_remove_back. rewrite rev_app_distr, rev_involutive.
  destruct (r d) as [|x r1] eqn:Ef; cbn [length] in E2; rewrite E2.
  - cbn [Nat.eqb app]. rewrite E2 in *. destruct (f d) as [|y [|z s]] eqn:Er; cbn [length] in E1; rewrite E1; [reflexivity| |lia].
    cbn. eexists. split; [reflexivity|apply empty_holds].
  - cbn [Nat.eqb app cdr bind]. apply check_gives; auto; [lia|]. rewrite rev_app_distr, rev_involutive. reflexivity.
Qed.
Lemma ref_ok d l n : holds d l -> ideque_ref d n = match nth_error l n with Some x => Ok x | None => Err end.
Proof.
  intros H. pose proof (length_ok _ _ H) as L. unfold ideque_length in L. destruct H as (E1 & E2 & I1 & I2 & ->). unfold ideque_ref.
  destruct (lenf d + lenr d <=? n) eqn:E; [apply Nat.leb_le in E|apply Nat.leb_gt in E].
  - rewrite (proj2 (nth_error_None _ _)) by lia. reflexivity.
  - unfold list_ref. destruct (n <? lenf d) eqn:E3; [apply Nat.ltb_lt in E3|apply Nat.ltb_ge in E3].
    + rewrite nth_error_app1 by lia. reflexivity.
    + rewrite nth_error_app2 by lia.
      destruct (nth_error (r d) (lenf d + lenr d - n - 1)) as [x|] eqn:Ex.
      * assert (nth_error (rev (r d)) (n - length (f d)) = Some x) as ->; auto.
        destruct (r d) as [|y0 rr] eqn:Er; [cbn in E2; lia|]. rewrite <- Er in *.
        rewrite (nth_error_nth' _ y0) by (rewrite rev_length; lia). rewrite rev_nth by lia.
        rewrite (nth_error_nth' _ y0) in Ex by lia. rewrite <- Ex. do 2 f_equal. lia.
      * apply nth_error_None in Ex. lia.
Qed.
Lemma take_ok d l n : holds d l -> n <= length l -> gives (take_ d n) (firstn n l).
Proof.
  intros H L. pose proof (length_ok _ _ H) as L0. unfold ideque_length in L0. destruct H as (E1 & E2 & I1 & I2 & ->). unfold take_.
  destruct (n <=? lenf d) eqn:E; [apply Nat.leb_le in E|apply Nat.leb_gt in E].
  - unfold take. destruct (n <=? length (f d)) eqn:E3; [|apply Nat.leb_gt in E3; lia]. cbn [bind]. apply check_gives; auto.
    + rewrite firstn_length. lia.
    + cbn. rewrite app_nil_r, firstn_app. replace (n - length (f d)) with 0 by lia. cbn. rewrite app_nil_r. reflexivity.
  - unfold take_right. destruct (n - lenf d <=? length (r d)) eqn:E3; [apply Nat.leb_le in E3|apply Nat.leb_gt in E3; lia]. cbn [bind]. apply check_gives; auto.
    + rewrite skipn_length. lia.
    + rewrite firstn_app, firstn_all2 by lia. f_equal. rewrite firstn_rev. do 2 f_equal. lia.
Qed.
Lemma drop_ok d l n : holds d l -> n <= length l -> gives (drop_ d n) (skipn n l).
Proof.
  intros H L. pose proof (length_ok _ _ H) as L0. unfold ideque_length in L0. destruct H as (E1 & E2 & I1 & I2 & ->). unfold drop_.
  destruct (n <=? lenf d) eqn:E; [apply Nat.leb_le in E|apply Nat.leb_gt in E].
  - unfold drop. destruct (n <=? length (f d)) eqn:E3; [|apply Nat.leb_gt in E3; lia]. cbn [bind]. apply check_gives; auto.
    + rewrite skipn_length. lia.
    + rewrite skipn_app. replace (n - length (f d)) with 0 by lia. reflexivity.
  - unfold take. destruct (_ <=? length (r d)) eqn:E3; [apply Nat.leb_le in E3|apply Nat.leb_gt in E3; lia]. cbn [bind]. apply check_gives; auto.
    + rewrite firstn_length. lia.
    + rewrite skipn_app, skipn_all2 by lia. cbn [app]. rewrite skipn_rev. do 2 f_equal. lia.
Qed.
Lemma append_ok (ds : list (dq A)) ls : Forall2 holds ds ls -> gives (ideque_append ds) (concat ls).
Proof.
  intros F. unfold ideque_append. replace (concat ls) with (concat (map ideque_to_list ds)); [apply list_to_ideque_ok|].
  f_equal. induction F as [|d l ds ls H F IH]; auto. cbn [map]. rewrite IH, (to_list_ok _ _ H). reflexivity.
Qed.
Lemma filter_rev (p : A -> bool) l : filter p (rev l) = rev (filter p l).
Proof. induction l as [|x l IH]; auto. cbn [rev filter]. rewrite filter_app, IH. cbn [filter]. destruct (p x); [reflexivity|apply app_nil_r]. Qed.
Lemma filter_ok p d l : holds d l -> gives (ideque_filter p d) (filter p l).
Proof. intros (E1 & E2 & _ & _ & ->). unfold ideque_filter. apply check_gives; auto. rewrite filter_app, filter_rev. reflexivity. Qed.
Lemma partition_filter_ (p : A -> bool) l : partition p l = (filter p l, filter (fun x => negb (p x)) l).
Proof. induction l as [|x l IH]; auto. cbn. rewrite IH. destruct (p x); reflexivity. Qed.
Lemma partition_ok p d l : holds d l -> exists a b, ideque_partition p d = Ok (a, b) /\ holds a (filter p l) /\ holds b (filter (fun x => negb (p x)) l).
Proof.
  intros H. unfold ideque_partition. rewrite !partition_filter_. destruct (filter_ok p d l H) as (a & Ea & Ha). destruct (filter_ok (fun x => negb (p x)) d l H) as (b & Eb & Hb).
  unfold ideque_filter in Ea, Eb. cbv zeta in Ea, Eb. rewrite Ea, Eb. cbn [bind]. exists a, b. auto.
Qed.
Lemma count_ok p d l : holds d l -> ideque_count p d = length (filter p l).
Proof. intros (_ & _ & _ & _ & ->). unfold ideque_count. rewrite filter_app, filter_rev, app_length, rev_length. reflexivity. Qed.
Lemma fold_ok {S} (g : A -> S -> S) s d l : holds d l -> ideque_fold g s d = fold_left (fun s x => g x s) l s.
Proof. intros (_ & _ & _ & _ & ->). unfold ideque_fold. rewrite fold_left_app. reflexivity. Qed.
Lemma fold_right_ok {S} (g : A -> S -> S) s d l : holds d l -> ideque_fold_right g s d = fold_right g s l.
Proof. intros (_ & _ & _ & _ & ->). unfold ideque_fold_right. rewrite fold_right_app. reflexivity. Qed.
Lemma find_app p l l' : find p (l ++ l') = match @find A p l with Some x => Some x | None => find p l' end.
Proof. induction l as [|x l IH]; auto. cbn. destruct (p x); auto. Qed.
Lemma find_ok p d l : holds d l -> ideque_find p d = find p l.
Proof. intros (_ & _ & _ & _ & ->). unfold ideque_find, search. rewrite find_app. reflexivity. Qed.
Lemma find_right_ok p d l : holds d l -> ideque_find_right p d = find p (rev l).
Proof. intros (_ & _ & _ & _ & ->). unfold ideque_find_right, search. rewrite rev_app_distr, rev_involutive, find_app. reflexivity. Qed.
Lemma any_ok p d l : holds d l -> ideque_any p d = existsb p l.
Proof. intros (_ & _ & _ & _ & ->). unfold ideque_any. rewrite existsb_app. destruct (r d); auto. cbn. rewrite orb_false_r. reflexivity. Qed.
Lemma every_ok p d l : holds d l -> ideque_every p d = forallb p l.
Proof. intros (_ & _ & _ & _ & ->). unfold ideque_every. rewrite forallb_app. destruct (r d); auto. cbn. rewrite andb_true_r. reflexivity. Qed.

Lemma span_ok p l : span p l = (takewhile p l, dropwhile p l).
Proof. induction l as [|x l IH]; auto. cbn. rewrite IH. destruct (p x); reflexivity. Qed.
Lemma tw_app p l l' : @takewhile A p (l ++ l') = if dropwhile p l then l ++ takewhile p l' else takewhile p l.
Proof. induction l as [|x l IH]; auto. cbn. destruct (p x); auto. rewrite IH. destruct (dropwhile p l); reflexivity. Qed.
Lemma dw_app p l l' : @dropwhile A p (l ++ l') = match dropwhile p l with [] => dropwhile p l' | s => s ++ l' end.
Proof. induction l as [|x l IH]; auto. cbn. destruct (p x); auto. Qed.
Lemma tw_all p l : @dropwhile A p l = [] -> takewhile p l = l.
Proof. induction l as [|x l IH]; auto. cbn. destruct (p x); [|discriminate]. intros. rewrite IH; auto. Qed.
Lemma span_gives p d l : holds d l -> exists a b, ideque_span p d = Ok (a, b) /\ holds a (takewhile p l) /\ holds b (dropwhile p l).
Proof.
  intros (E1 & E2 & _ & _ & ->). unfold ideque_span. rewrite !span_ok, tw_app, dw_app. destruct (dropwhile p (f d)) as [|y s] eqn:E.
  - rewrite (tw_all _ _ E).
    destruct (check_gives (length (f d)) (length (takewhile p (rev (r d)))) (f d) (rev (takewhile p (rev (r d)))) (f d ++ takewhile p (rev (r d)))) as (a & -> & Ha); auto.
    { rewrite rev_length. reflexivity. } { rewrite rev_involutive. reflexivity. }
    destruct (list_to_ideque_ok (dropwhile p (rev (r d)))) as (b & Eb & Hb). unfold list_to_ideque in Eb. rewrite Eb. cbn [bind]. exists a, b. auto.
  - destruct (list_to_ideque_ok (takewhile p (f d))) as (a & Ea & Ha). unfold list_to_ideque in Ea. rewrite Ea. cbn [bind].
    destruct (check_gives (length (y :: s)) (lenr d) (y :: s) (r d) ((y :: s) ++ rev (r d))) as (b & -> & Hb); auto. cbn [bind]. exists a, b. auto.
Qed.
Lemma take_while_ok p d l : holds d l -> gives (ideque_take_while p d) (takewhile p l).
Proof.
  intros (E1 & E2 & _ & _ & ->). unfold ideque_take_while. rewrite !span_ok, tw_app. destruct (dropwhile p (f d)) as [|y s] eqn:E.
  - apply check_gives; auto; rewrite ?rev_length, ?rev_involutive; reflexivity.
  - apply list_to_ideque_ok.
Qed.
Lemma drop_while_ok p d l : holds d l -> gives (ideque_drop_while p d) (dropwhile p l).
Proof.
  intros (E1 & E2 & _ & _ & ->). unfold ideque_drop_while. rewrite !span_ok, dw_app. destruct (dropwhile p (f d)) as [|y s] eqn:E.
  - apply list_to_ideque_ok.
  - apply check_gives; auto.
Qed.
Lemma take_while_right_ok p d l : holds d l -> gives (ideque_take_while_right p d) (rev (takewhile p (rev l))).
Proof.
  intros H. unfold ideque_take_while_right. destruct (take_while_ok p _ _ (reverse_ok _ _ H)) as (t & -> & Ht). cbn [bind]. eexists. split; [reflexivity|].
  apply reverse_ok. exact Ht.
Qed.
Lemma drop_while_right_ok p d l : holds d l -> gives (ideque_drop_while_right p d) (rev (dropwhile p (rev l))).
Proof.
  intros H. unfold ideque_drop_while_right. destruct (drop_while_ok p _ _ (reverse_ok _ _ H)) as (t & -> & Ht). cbn [bind]. eexists. split; [reflexivity|].
  apply reverse_ok. exact Ht.
Qed.
Lemma generate_ok : forall n d l, holds d l -> length l < n -> generate n d = Ok l.
Proof.
  induction n as [|n IH]; intros d l H L; [lia|]. cbn [generate]. rewrite (empty_ok _ _ H), (front_ok _ _ H). pose proof (remove_front_ok _ _ H) as R.
  destruct l as [|x l]; auto. cbn [bind]. destruct R as (d1 & -> & H1). cbn [bind]. rewrite (IH _ _ H1) by (cbn in L; lia). reflexivity.
Qed.
Lemma make_ok n x : holds (@make_ideque A n x) (repeat x n).
Proof.
  unfold make_ideque, holds. cbn [lenf f lenr r]. rewrite !repeat_length. pose proof (div2_le n). repeat split; try lia.
  assert (forall m (y : A), rev (repeat y m) = repeat y m) as G.
  { induction m as [|m IH]; intros y; auto. cbn [repeat rev]. rewrite IH, <- repeat_cons. reflexivity. }
  rewrite G, <- repeat_app. f_equal. lia.
Qed.
Lemma tabulate_ok n g : holds (@ideque_tabulate A n g) (map g (seq 0 n)).
Proof.
  unfold ideque_tabulate, holds. cbn [lenf f lenr r]. rewrite !map_length, !seq_length. pose proof (div2_le n). pose proof (div2_le (n + 1)).
  repeat split; try lia. rewrite <- map_rev. set (lf := n / 2) in *. set (lr := (n + 1) / 2) in *. replace n with (lf + lr) at 1 by lia.
  rewrite seq_app, map_app. f_equal. cbn [Nat.add]. assert (n = lf + lr) as En by lia. clearbody lf lr. subst n. clear.
  induction lr as [|m IH] in lf |- *; auto. rewrite (seq_S m 0), rev_app_distr. cbn [rev app map seq Nat.add]. f_equal; [f_equal; lia|].
  rewrite (IH (S lf)). apply map_ext_in. intros a Ha. f_equal. lia.
Qed.
(** ideque= *)
Lemma list_eq_app eq a b a' b' : length a = length a' -> list_eq eq (a ++ b) (a' ++ b') = @list_eq A eq a a' && list_eq eq b b'.
Proof.
  revert a'. induction a as [|x a IH]; intros [|y a'] L; try discriminate; auto. cbn. rewrite IH by (cbn in L; lia). apply andb_assoc.
Qed.
Lemma list_eq_rev eq : forall a a', length a = length a' -> @list_eq A eq (rev a) (rev a') = list_eq eq a a'.
Proof.
  induction a as [|x a IH]; intros [|y a'] L; try discriminate; auto. cbn [rev]. rewrite list_eq_app by (rewrite !rev_length; cbn in L; lia).
  rewrite IH by (cbn in L; lia). cbn. rewrite andb_true_r. apply andb_comm.
Qed.
Lemma list_prefix_eq_ok eq : forall a b, exists x c t1 t2 e, list_prefix_eq eq a b = (x, t1, t2) /\ a = c ++ t1 /\ b = e ++ t2 /\ length c = length e /\
  (x = true -> list_eq eq c e = true /\ (t1 = [] \/ t2 = [])) /\ (x = false -> @list_eq A eq a b = false /\ forall u v, list_eq eq (a ++ u) (b ++ v) = false).
Proof.
  induction a as [|x a IH]; intros b.
  - exists true, [], [], b, []. cbn. repeat split; auto; try discriminate. all: intros; discriminate.
  - destruct b as [|y b]; [exists true, [], (x :: a), [], []; cbn; repeat split; auto; intros; discriminate|]. cbn [list_prefix_eq].
    destruct (eq x y) eqn:E.
    + destruct (IH b) as (z & c & t1 & t2 & e & Eq & Ea & Eb & L & T & F). rewrite Eq. exists z, (x :: c), t1, t2, (y :: e).
      repeat split; auto; try (cbn; congruence).
      * destruct (T H) as [T1 _]. cbn. rewrite E. exact T1.
      * apply T; auto.
      * cbn. destruct (F H) as [F1 _]. rewrite F1. apply andb_false_r.
      * intros u v. cbn. destruct (F H) as [_ F1]. rewrite F1. apply andb_false_r.
    + exists false, [], (x :: a), (y :: b), []. cbn. rewrite E. repeat split; auto; discriminate.
Qed.
Lemma list_eq_len eq : forall a b, @list_eq A eq a b = true -> length a = length b.
Proof. induction a as [|x a IH]; intros [|y b]; cbn; try discriminate; auto. rewrite andb_true_iff. intros [_ H]. f_equal. auto. Qed.
Lemma list_eq_sym eq : (forall x y, eq x y = eq y x) -> forall a b, @list_eq A eq a b = list_eq eq b a.
Proof. intros S. induction a as [|x a IH]; intros [|y b]; cbn; auto. rewrite S, IH. reflexivity. Qed.
Lemma ideque_eq_ok eq d1 d2 l1 l2 : (forall x y, eq x y = eq y x) -> holds d1 l1 -> holds d2 l2 -> ideque_eq false eq d1 d2 = list_eq eq l1 l2.
Proof.
  intros S H1 H2. pose proof (length_ok _ _ H1) as L1. pose proof (length_ok _ _ H2) as L2. unfold ideque_length in L1, L2. unfold ideque_eq. cbn [orb].
  destruct (lenf d1 + lenr d1 =? lenf d2 + lenr d2) eqn:E; cbn [andb].
  2:{ apply Nat.eqb_neq in E. destruct (list_eq eq l1 l2) eqn:E2; auto. apply list_eq_len in E2. lia. }
  apply Nat.eqb_eq in E. destruct H1 as (A1 & A2 & _ & _ & ->), H2 as (B1 & B2 & _ & _ & ->).
  destruct (list_prefix_eq_ok eq (f d1) (f d2)) as (x & c & t1 & t2 & e & -> & Ef1 & Ef2 & Lc & Tx & Fx).
  destruct x; cbn [andb]; [|symmetry; apply Fx; reflexivity].
  destruct (list_prefix_eq_ok eq (r d1) (r d2)) as (y & c' & r1 & r2 & e' & -> & Er1 & Er2 & Lc' & Ty & Fy).
  destruct (Tx eq_refl) as [Te Tn].
  destruct y; cbn [andb].
  - destruct (Ty eq_refl) as [Te' Tn'].
    rewrite Ef1, Er1, Ef2, Er2 in *. rewrite !app_length in *. rewrite !rev_app_distr, <- !app_assoc.
    rewrite list_eq_app by exact Lc. rewrite Te. cbn [andb].
    rewrite !app_assoc. rewrite list_eq_app by (rewrite !app_length, !rev_length; lia).
    rewrite list_eq_rev by exact Lc'. rewrite Te', andb_true_r.
    destruct t1 as [|z t1].
    + cbn [app length] in *. replace (rev r2) with (@nil A).
      * rewrite app_nil_r. apply list_eq_sym. exact S.
      * assert (length r2 = 0) as L by (destruct Tn' as [-> | ->]; cbn in *; lia). destruct r2; [reflexivity|discriminate].
    + destruct Tn as [Tn|Tn]; [discriminate|]. subst t2. cbn [app]. replace (rev r1) with (@nil A).
      * rewrite app_nil_r. reflexivity.
      * assert (length r1 = 0) as L by (destruct Tn' as [-> | ->]; cbn in *; lia). destruct r1; [reflexivity|discriminate].
  - rewrite <- list_eq_rev by (rewrite !app_length, !rev_length; lia). rewrite !rev_app_distr, !rev_involutive.
    symmetry. apply (Fy eq_refl).
Qed.
End P.

Lemma map_ok {A B} (g : A -> B) d l : holds d l -> holds (ideque_map g d) (map g l).
Proof. intros (E1 & E2 & I1 & I2 & ->). unfold holds. cbn [ideque_map lenf f lenr r]. rewrite !map_length, map_app, map_rev. auto. Qed.
Lemma filter_map_ok {A B} (g : A -> option B) d l : holds d l -> gives (ideque_filter_map g d) (filter_map g l).
Proof.
  intros (E1 & E2 & I1 & I2 & ->). unfold ideque_filter_map. apply check_gives; auto. unfold filter_map. rewrite flat_map_app. f_equal.
  clear E2. induction (r d) as [|x s IH]; auto. cbn [rev flat_map]. rewrite flat_map_app, IH, rev_app_distr. cbn [flat_map]. f_equal. rewrite app_nil_r. destruct (g x); reflexivity.
Qed.
