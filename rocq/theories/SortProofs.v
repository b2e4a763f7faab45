(** The array sorts of src/compare.c. *)
From Coq Require Import List Bool ZArith Permutation Lia.
From Verif Require Import Outcome ListModel SortModel SortSpec.
Import ListNotations.
Local Open Scope Z_scope.
Ltac Zify.zify_post_hook ::= idtac.

(** ** Arrays *)
Section Arr.
Context {A : Type}.
Implicit Types a b : list A.

Lemma upd_length : forall n (x : A) l, length (upd n x l) = length l.
Proof. induction n; destruct l; cbn; auto. Qed.
Lemma upd_nth_same : forall n (x : A) l, (n < length l)%nat -> nth_error (upd n x l) n = Some x.
Proof. induction n; destruct l; cbn; intros; try lia; auto. apply IHn; lia. Qed.
Lemma upd_nth_other : forall n m (x : A) l, n <> m -> nth_error (upd n x l) m = nth_error l m.
Proof. induction n; destruct l; destruct m; cbn; intros; try lia; auto. Qed.

Definition at_ (a : list A) (i : Z) : option A := if i <? 0 then None else nth_error a (Z.to_nat i).
Definition alen (a : list A) := Z.of_nat (length a).

Lemma at_some : forall a i, 0 <= i < alen a -> exists x, at_ a i = Some x.
Proof.
  intros a i H. unfold at_. destruct (Z.ltb_spec i 0); [lia|].
  destruct (nth_error a (Z.to_nat i)) eqn:E; eauto.
  apply nth_error_None in E. unfold alen in H. lia.
Qed.
Lemma at_range : forall a i x, at_ a i = Some x -> 0 <= i < alen a.
Proof.
  unfold at_, alen. intros. destruct (Z.ltb_spec i 0); [discriminate|].
  assert (Z.to_nat i < length a)%nat by (apply nth_error_Some; congruence). lia.
Qed.
Lemma aget_at : forall a i x, at_ a i = Some x -> aget a i = Ok x.
Proof.
  unfold at_, aget. intros. destruct (i <? 0); [discriminate|]. rewrite H. reflexivity.
Qed.
Lemma aset_ok : forall a i x, 0 <= i < alen a -> aset a i x = Ok (upd (Z.to_nat i) x a).
Proof.
  unfold aset, alen. intros. destruct (Z.ltb_spec i 0); [lia|]. cbn.
  destruct (Z.leb_spec (Z.of_nat (length a)) i); [lia|]. reflexivity.
Qed.
Lemma at_upd_same : forall a i x, 0 <= i < alen a -> at_ (upd (Z.to_nat i) x a) i = Some x.
Proof.
  unfold at_, alen. intros. destruct (Z.ltb_spec i 0); [lia|]. apply upd_nth_same. lia.
Qed.
Lemma at_upd_other : forall a i j x, 0 <= i -> i <> j -> at_ (upd (Z.to_nat i) x a) j = at_ a j.
Proof.
  unfold at_. intros. destruct (Z.ltb_spec j 0); auto. apply upd_nth_other. lia.
Qed.

Lemma upd_split : forall (l : list A) n x, nth_error l n = Some x ->
  l = firstn n l ++ x :: skipn (S n) l.
Proof.
  induction l; destruct n; intros x H; cbn in H; try discriminate.
  - injection H as ->. reflexivity.
  - cbn [firstn app]. f_equal. exact (IHl n x H).
Qed.
Lemma upd_app : forall (l1 : list A) x y l2, upd (length l1) y (l1 ++ x :: l2) = l1 ++ y :: l2.
Proof. induction l1; cbn; intros; auto. f_equal; auto. Qed.
Lemma nth_error_firstn_lt : forall (l : list A) n m, (m < n)%nat -> nth_error (firstn n l) m = nth_error l m.
Proof.
  induction l; intros; destruct n, m; cbn; try lia; auto. apply IHl. lia.
Qed.

Lemma swap_perm_lt : forall (l : list A) i j x y, (i < j)%nat -> nth_error l i = Some x -> nth_error l j = Some y ->
  Permutation l (upd j x (upd i y l)) /\ Permutation l (upd i y (upd j x l)).
Proof.
  intros l i j x y Hij Hi Hj.
  pose proof (upd_split _ _ _ Hi) as E.
  set (l1 := firstn i l) in *. set (l2 := skipn (S i) l) in *.
  assert (L1 : length l1 = i).
  { subst l1. apply firstn_length_le. apply Nat.lt_le_incl. apply nth_error_Some. congruence. }
  assert (H2 : nth_error l2 (j - S i) = Some y).
  { rewrite E in Hj. rewrite nth_error_app2 in Hj by lia. rewrite L1 in Hj.
    replace (j - i)%nat with (S (j - S i)) in Hj by lia. exact Hj. }
  pose proof (upd_split _ _ _ H2) as E2.
  set (l3 := firstn (j - S i) l2) in *. set (l4 := skipn (S (j - S i)) l2) in *.
  assert (L3 : length l3 = (j - S i)%nat).
  { subst l3. apply firstn_length_le. apply Nat.lt_le_incl. apply nth_error_Some. congruence. }
  rewrite E2 in E. clear E2.
  assert (F : l1 ++ y :: l3 ++ x :: l4 = upd j x (upd i y l) /\ l1 ++ y :: l3 ++ x :: l4 = upd i y (upd j x l)).
  { rewrite E. split.
    - rewrite <- L1 at 1. rewrite upd_app.
      replace j with (length (l1 ++ y :: l3)) by (rewrite app_length; cbn; lia).
      replace (l1 ++ y :: l3 ++ y :: l4) with ((l1 ++ y :: l3) ++ y :: l4) by (rewrite <- app_assoc; reflexivity).
      rewrite upd_app. rewrite <- app_assoc. reflexivity.
    - replace j with (length (l1 ++ x :: l3)) by (rewrite app_length; cbn; lia).
      replace (l1 ++ x :: l3 ++ y :: l4) with ((l1 ++ x :: l3) ++ y :: l4) by (rewrite <- app_assoc; reflexivity).
      rewrite upd_app. rewrite <- app_assoc. rewrite <- L1 at 1. cbn [app]. rewrite upd_app. reflexivity. }
  destruct F as [F1 F2]. rewrite <- F1, <- F2. rewrite E.
  assert (P : Permutation (l1 ++ x :: l3 ++ y :: l4) (l1 ++ y :: l3 ++ x :: l4)).
  { apply Permutation_app_head.
    change (x :: l3 ++ y :: l4) with ((x :: l3) ++ y :: l4).
    etransitivity. { symmetry. apply Permutation_middle. }
    cbn. apply perm_skip. apply Permutation_middle. }
  split; exact P.
Qed.

Lemma nth_error_ext_ : forall l l' : list A, (forall n, nth_error l n = nth_error l' n) -> l = l'.
Proof.
  induction l; destruct l'; intros H; auto.
  - specialize (H O). discriminate.
  - specialize (H O). discriminate.
  - pose proof (H O) as H0. injection H0 as ->. f_equal. apply IHl. intros n. exact (H (S n)).
Qed.

(** [a'] is obtained from [a] by rearranging the positions in [s, e) *)
Definition rearr (s e : Z) (a a' : list A) : Prop :=
  Permutation a a' /\ length a' = length a /\
  (forall k, k < s \/ e <= k -> at_ a' k = at_ a k) /\
  (forall P : A -> Prop, (forall k x, s <= k < e -> at_ a k = Some x -> P x) ->
                         (forall k x, s <= k < e -> at_ a' k = Some x -> P x)).
Lemma rearr_refl : forall s e a, rearr s e a a.
Proof. intros. repeat split; auto. Qed.
Lemma rearr_trans : forall s e a b c, rearr s e a b -> rearr s e b c -> rearr s e a c.
Proof.
  intros s e a b c (P1 & L1 & F1 & Q1) (P2 & L2 & F2 & Q2). split; [|split; [|split]].
  - etransitivity; eauto.
  - congruence.
  - intros. rewrite F2, F1; auto.
  - intros P H. apply Q2. apply Q1. exact H.
Qed.
Lemma rearr_weaken : forall s e s' e' a b, s' <= s -> e <= e' -> rearr s e a b -> rearr s' e' a b.
Proof.
  intros s e s' e' a b Hs He (P1 & L1 & F1 & Q1). split; [|split; [|split]]; auto.
  - intros. apply F1. lia.
  - intros P H k x Hk Hx.
    destruct (Z_lt_dec k s) as [|]; [rewrite F1 in Hx by lia; apply (H k); auto|].
    destruct (Z_le_dec e k) as [|]; [rewrite F1 in Hx by lia; apply (H k); auto|].
    eapply (Q1 P); [| |exact Hx]; [|lia]. intros k' x' Hk' Hx'. apply (H k'); auto. lia.
Qed.
Lemma rearr_len : forall s e a b, rearr s e a b -> alen b = alen a.
Proof. intros s e a b (_ & L & _). unfold alen. congruence. Qed.

Lemma aswap_ok : forall a s e i j x y, s <= i < e -> s <= j < e -> at_ a i = Some x -> at_ a j = Some y ->
  exists a', aswap a i j = Ok a' /\ rearr s e a a' /\ at_ a' i = Some y /\ at_ a' j = Some x /\
    (forall k, k <> i -> k <> j -> at_ a' k = at_ a k).
Proof.
  intros a s e i j x y Hi Hj Ei Ej.
  pose proof (at_range _ _ _ Ei) as Ri. pose proof (at_range _ _ _ Ej) as Rj.
  unfold aswap. rewrite (aget_at _ _ _ Ei), (aget_at _ _ _ Ej). cbn [bind].
  rewrite aset_ok by auto. cbn [bind]. rewrite aset_ok by (unfold alen in *; rewrite upd_length; lia).
  eexists; split; [reflexivity|].
  assert (Lu : forall k x (l : list A), alen (upd k x l) = alen l) by (intros; unfold alen; rewrite upd_length; auto).
  assert (A1 : at_ (upd (Z.to_nat j) x (upd (Z.to_nat i) y a)) i = Some y).
  { destruct (Z.eq_dec i j) as [->|].
    - rewrite at_upd_same by (rewrite Lu; lia). congruence.
    - rewrite at_upd_other by lia. apply at_upd_same; lia. }
  assert (A2 : at_ (upd (Z.to_nat j) x (upd (Z.to_nat i) y a)) j = Some x).
  { rewrite at_upd_same by (rewrite Lu; lia). reflexivity. }
  assert (A3 : forall k, k <> i -> k <> j -> at_ (upd (Z.to_nat j) x (upd (Z.to_nat i) y a)) k = at_ a k).
  { intros. rewrite !at_upd_other by lia. reflexivity. }
  split; [|auto].
  split; [|split; [|split]].
  - assert (Ni : nth_error a (Z.to_nat i) = Some x) by (unfold at_ in Ei; destruct (i <? 0); [discriminate|auto]).
    assert (Nj : nth_error a (Z.to_nat j) = Some y) by (unfold at_ in Ej; destruct (j <? 0); [discriminate|auto]).
    destruct (Z.lt_trichotomy i j) as [|[->|]].
    + refine (proj1 (swap_perm_lt a _ _ x y _ Ni Nj)). lia.
    + assert (x = y) by congruence. subst y.
      assert (U : upd (Z.to_nat j) x a = a).
      { apply nth_error_ext_. intros m. destruct (Nat.eq_dec (Z.to_nat j) m) as [<-|].
        - rewrite upd_nth_same; auto. apply nth_error_Some. congruence.
        - apply upd_nth_other; auto. }
      rewrite !U. reflexivity.
    + refine (proj2 (swap_perm_lt a _ _ y x _ Nj Ni)). lia.
  - rewrite !upd_length. reflexivity.
  - intros k Hk. apply A3; lia.
  - intros P HP k z Hk Hz.
    destruct (Z.eq_dec k i) as [->|]; [|destruct (Z.eq_dec k j) as [->|]].
    + rewrite A1 in Hz. injection Hz as <-. apply (HP j); auto.
    + rewrite A2 in Hz. injection Hz as <-. apply (HP i); auto.
    + rewrite A3 in Hz by auto. apply (HP k); auto.
Qed.
End Arr.

Section Sorts.
Context {A : Type} (cmp : A -> A -> Z).
Implicit Types a b : list A.
Definition lt_ (x y : A) : bool := cmp x y <? 0.

(** ** Heap sort *)
Definition H_ (a : list A) (base k : Z) : option A := at_ a (base + (k - 1)).
Definition child (p c : Z) : Prop := c = 2 * p \/ c = 2 * p + 1.
Definition node_ok (a : list A) (base n k : Z) : Prop :=
  forall c x y, child k c -> c <= n -> H_ a base k = Some x -> H_ a base c = Some y -> lt_ x y = false.

Lemma shift_up_loop_ok : forall f a base n l,
  0 <= base -> base + n <= alen a -> 1 <= l <= n -> n < 2 ^ 30 -> (Z.to_nat (n - l) < f)%nat ->
  exists a', shift_up_loop cmp f a base n l = Ok a' /\ rearr base (base + n) a a' /\
    (strict_weak_order lt_ -> forall l0, 1 <= l0 <= l ->
       (forall k, l0 <= k -> k <> l -> node_ok a base n k) ->
       (forall p c x y, l0 <= p -> child p l -> child l c -> c <= n -> H_ a base p = Some x -> H_ a base c = Some y -> lt_ x y = false) ->
       forall k, l0 <= k -> node_ok a' base n k).
Proof.
  induction f; intros a base n l Hb Hlen Hl Hn Hf; [lia|].
  cbn [shift_up_loop]. destruct (Z.ltb_spec INT_MAX (l * 2)) as [HI|HI]; [unfold INT_MAX in HI; lia|].
  destruct (Z.leb_spec (l * 2) n) as [H2|H2].
  2:{ exists a. split; [reflexivity|]. split; [apply rearr_refl|].
      intros _ l0 Hl0 Hok _ k Hk. destruct (Z.eq_dec k l) as [->|]; auto.
      intros c x y Hc Hcn. unfold child in Hc. lia. }
  set (M := if l * 2 =? n then _ else _).
  assert (HM : exists m, M = Ok m /\ child l (m + 1) /\ m + 1 <= n /\
      (strict_weak_order lt_ -> forall c x y, child l c -> c <= n -> H_ a base (m + 1) = Some x -> H_ a base c = Some y -> lt_ x y = false)).
  { subst M. destruct (Z.eqb_spec (l * 2) n) as [E|E].
    - exists (n - 1). split; [reflexivity|]. split; [left; lia|]. split; [lia|].
      intros W c x y Hc Hcn Hx Hy. assert (c = n) by (unfold child in Hc; lia). subst c.
      replace (n - 1 + 1) with n in Hx by lia. rewrite Hx in Hy. injection Hy as ->. apply W.
    - destruct (at_some a (base + (l * 2 - 1))) as [x Ex]; [lia|].
      destruct (at_some a (base + l * 2)) as [y Ey]; [lia|].
      rewrite (aget_at _ _ _ Ex), (aget_at _ _ _ Ey). cbn [bind].
      eexists; split; [reflexivity|].
      destruct (Z.ltb_spec (cmp x y) 0) as [C|C].
      + split; [right; lia|]. split; [lia|].
        intros W c u v Hc Hcn Hu Hv. unfold H_ in *. replace (base + (l * 2 + 1 - 1)) with (base + l * 2) in Hu by lia.
        rewrite Ey in Hu. injection Hu as <-. destruct Hc as [->| ->].
        * replace (base + (2 * l - 1)) with (base + (l * 2 - 1)) in Hv by lia. rewrite Ex in Hv. injection Hv as <-.
          destruct (lt_ y x) eqn:L; auto. exfalso.
          assert (lt_ x y = true) by (apply Z.ltb_lt; exact C).
          pose proof (swo_trans _ W _ _ _ H L). rewrite (swo_irrefl _ W) in H0. discriminate.
        * replace (base + (2 * l + 1 - 1)) with (base + l * 2) in Hv by lia. rewrite Ey in Hv. injection Hv as <-. apply W.
      + split; [left; lia|]. split; [lia|].
        intros W c u v Hc Hcn Hu Hv. unfold H_ in *. replace (base + (l * 2 - 1 + 1 - 1)) with (base + (l * 2 - 1)) in Hu by lia.
        rewrite Ex in Hu. injection Hu as <-. destruct Hc as [->| ->].
        * replace (base + (2 * l - 1)) with (base + (l * 2 - 1)) in Hv by lia. rewrite Ex in Hv. injection Hv as <-. apply W.
        * replace (base + (2 * l + 1 - 1)) with (base + l * 2) in Hv by lia. rewrite Ey in Hv. injection Hv as <-.
          apply Z.ltb_ge. exact C. }
  destruct HM as (m & -> & Hm & Hmn & Hmax). cbn [bind].
  assert (Hm2 : l + 1 <= m + 1) by (unfold child in Hm; lia).
  destruct (at_some a (base + (l - 1))) as [x Ex]; [lia|].
  destruct (at_some a (base + m)) as [y Ey]; [lia|].
  rewrite (aget_at _ _ _ Ex), (aget_at _ _ _ Ey). cbn [bind].
  destruct (Z.ltb_spec (cmp x y) 0) as [C|C].
  - destruct (aswap_ok a base (base + n) (base + m) (base + (l - 1)) y x) as (a1 & E1 & R1 & B1 & B2 & B3); try lia; auto.
    rewrite E1. cbn [bind].
    destruct (IHf a1 base n (m + 1)) as (a' & E' & R' & K'); try lia.
    { rewrite (rearr_len _ _ _ _ R1). lia. }
    exists a'. split; [exact E'|]. split; [eapply rearr_trans; eauto|].
    intros W l0 Hl0 Hok Hgp. apply (K' W l0); [lia| |].
    + intros k Hk Hkm c u v Hc Hcn Hu Hv. unfold H_ in *.
      destruct (Z.eq_dec k l) as [->|Hkl].
      * rewrite B2 in Hu. injection Hu as <-.
        destruct (Z.eq_dec c (m + 1)) as [->|Hcm].
        -- replace (base + (m + 1 - 1)) with (base + m) in Hv by lia. rewrite B1 in Hv. injection Hv as <-.
           destruct (lt_ y x) eqn:L; auto. exfalso.
           assert (lt_ x y = true) by (apply Z.ltb_lt; exact C).
           pose proof (swo_trans _ W _ _ _ H L). rewrite (swo_irrefl _ W) in H0. discriminate.
        -- assert (c <> l) by (unfold child in Hc; lia).
           rewrite B3 in Hv by lia. apply (Hmax W c); auto. unfold H_. replace (base + (m + 1 - 1)) with (base + m) by lia. auto.
      * rewrite B3 in Hu by lia.
        destruct (Z.eq_dec c l) as [->|Hcl].
        -- rewrite B2 in Hv. injection Hv as <-. apply (Hgp k (m + 1)); auto.
           unfold H_. replace (base + (m + 1 - 1)) with (base + m) by lia. auto.
        -- assert (c <> m + 1) by (unfold child in *; lia).
           rewrite B3 in Hv by lia. apply (Hok k Hk Hkl c); auto.
    + intros p c u v Hp Hpm Hmc Hcn Hu Hv. unfold H_ in *.
      assert (p = l) by (unfold child in *; lia). subst p.
      rewrite B2 in Hu. injection Hu as <-.
      assert (c <> m + 1 /\ c <> l) by (unfold child in *; lia).
      rewrite B3 in Hv by lia. apply (Hok (m + 1)) with (c := c); auto; try lia.
      unfold H_. replace (base + (m + 1 - 1)) with (base + m) by lia. auto.
  - exists a. split; [reflexivity|]. split; [apply rearr_refl|].
    intros W l0 Hl0 Hok _ k Hk. destruct (Z.eq_dec k l) as [->|]; auto.
    intros c u v Hc Hcn Hu Hv. unfold H_ in *. rewrite Ex in Hu. injection Hu as <-.
    apply (swo_negtrans _ W x y v).
    + apply Z.ltb_ge; exact C.
    + apply (Hmax W c); auto. unfold H_. replace (base + (m + 1 - 1)) with (base + m) by lia. auto.
Qed.

Lemma shift_up_ok : forall a base root n,
  0 <= base -> base + n <= alen a -> 0 <= root < n -> n < 2 ^ 30 ->
  exists a', shift_up cmp a base root n = Ok a' /\ rearr base (base + n) a a' /\
    (strict_weak_order lt_ -> (forall k, root + 1 < k -> node_ok a base n k) -> forall k, root + 1 <= k -> node_ok a' base n k).
Proof.
  intros a base root n Hb Hlen Hr Hn. unfold shift_up.
  destruct (shift_up_loop_ok (S (length a)) a base n (root + 1)) as (a' & E & R & K); try lia.
  { unfold alen in Hlen. lia. }
  exists a'. split; [exact E|]. split; [exact R|].
  intros W Hok. apply (K W (root + 1)); [lia| |].
  - intros k Hk Hk2. apply Hok. lia.
  - intros p c x y Hp Hpl. unfold child in Hpl. lia.
Qed.

Lemma sort_h_build_ok : forall m a base n,
  0 <= base -> base + n <= alen a -> Z.of_nat m <= n -> n < 2 ^ 30 ->
  exists a', sort_h_build cmp m a base n = Ok a' /\ rearr base (base + n) a a' /\
    (strict_weak_order lt_ -> (forall k, Z.of_nat m < k -> node_ok a base n k) -> forall k, 1 <= k -> node_ok a' base n k).
Proof.
  induction m; intros a base n Hb Hlen Hm Hn; cbn [sort_h_build].
  - exists a. split; [reflexivity|]. split; [apply rearr_refl|]. intros W H k Hk. apply H. lia.
  - destruct (shift_up_ok a base (Z.of_nat m) n) as (a1 & -> & R1 & K1); try lia. cbn [bind].
    destruct (IHm a1 base n) as (a' & -> & R' & K'); try lia. { rewrite (rearr_len _ _ _ _ R1). lia. }
    exists a'. split; [reflexivity|]. split; [eapply rearr_trans; eauto|].
    intros W H. apply (K' W). intros k Hk. apply (K1 W); [|lia]. intros k' Hk'. apply H. lia.
Qed.

(** the root of a heap is a maximum *)
Lemma heap_max : forall a base n, strict_weak_order lt_ -> 0 <= base -> base + n <= alen a ->
  (forall k, 1 <= k -> node_ok a base n k) ->
  forall k, 1 <= k <= n -> forall x y, H_ a base 1 = Some x -> H_ a base k = Some y -> lt_ x y = false.
Proof.
  intros a base n W Hb Hlen Hok k.
  remember (Z.to_nat k) as m eqn:Em. revert k Em. induction m as [m IH] using lt_wf_ind.
  intros k Em Hk x y Hx Hy. destruct (Z.eq_dec k 1) as [->|].
  - rewrite Hx in Hy. injection Hy as <-. apply W.
  - pose proof (Z.div_mod k 2 ltac:(lia)) as D. pose proof (Z.mod_pos_bound k 2 ltac:(lia)) as D2.
    set (p := k / 2) in *.
    destruct (at_some a (base + (p - 1))) as [z Ez]; [lia|].
    apply (swo_negtrans _ W x z y).
    + apply (IH (Z.to_nat p)) with (k := p); auto; lia.
    + apply (Hok p ltac:(lia) k); auto; [unfold child; lia|lia].
Qed.

(** positions [s..e] are in order *)
Definition ord (a : list A) (s e : Z) : Prop :=
  forall i j x y, s <= i -> i < j -> j <= e -> at_ a i = Some x -> at_ a j = Some y -> lt_ y x = false.

Lemma sort_h_extract_ok : forall m a base n,
  0 <= base -> base + n <= alen a -> Z.of_nat m < n -> n < 2 ^ 30 ->
  exists a', sort_h_extract cmp m a base = Ok a' /\ rearr base (base + Z.of_nat m + 1) a a' /\
    (strict_weak_order lt_ ->
      (forall k, 1 <= k -> node_ok a base (Z.of_nat m + 1) k) ->
      ord a (base + Z.of_nat m + 1) (base + n - 1) ->
      (forall i j x y, base <= i <= base + Z.of_nat m -> base + Z.of_nat m < j < base + n -> at_ a i = Some x -> at_ a j = Some y -> lt_ y x = false) ->
      ord a' base (base + n - 1)).
Proof.
  induction m; intros a base n Hb Hlen Hm Hn.
  - cbn [sort_h_extract]. exists a. split; [reflexivity|]. split; [apply rearr_refl|].
    intros W _ Ho Hlt i j x y Hi Hij Hj Hx Hy.
    destruct (Z.eq_dec i base) as [->|].
    + apply (Hlt base j); auto; lia.
    + apply (Ho i j); auto; lia.
  - cbn [sort_h_extract]. rewrite Nat2Z.inj_succ in *. set (M := Z.of_nat m) in *.
    assert (HM : 0 <= M) by (subst M; lia).
    destruct (at_some a (base + Z.succ M)) as [x Ex]; [lia|].
    destruct (at_some a (base + 0)) as [y Ey]; [lia|].
    destruct (aswap_ok a base (base + Z.succ M + 1) (base + Z.succ M) (base + 0) x y) as (a1 & E1 & R1 & B1 & B2 & B3); try lia; auto.
    rewrite E1. cbn [bind].
    destruct (shift_up_ok a1 base 0 (Z.succ M)) as (a2 & E2 & R2 & K2); try lia. { rewrite (rearr_len _ _ _ _ R1). lia. }
    rewrite E2. cbn [bind].
    destruct (IHm a2 base n) as (a' & E' & R' & K'); try lia. { rewrite (rearr_len _ _ _ _ R2), (rearr_len _ _ _ _ R1). lia. }
    fold M in R', K', E'.
    exists a'. split; [exact E'|]. split.
    { eapply rearr_trans; [exact R1|]. eapply rearr_trans; [eapply rearr_weaken; [| |exact R2]; lia|].
      eapply rearr_weaken; [| |exact R']; lia. }
    intros W Hok Ho Hlt.
    assert (Hmax : forall k z, base <= k <= base + Z.succ M -> at_ a k = Some z -> lt_ y z = false).
    { intros k z Hk Hz. apply (heap_max a base (Z.succ M + 1) W Hb ltac:(lia) Hok (k - base + 1) ltac:(lia)).
      - unfold H_. replace (base + (1 - 1)) with (base + 0) by lia. exact Ey.
      - unfold H_. replace (base + (k - base + 1 - 1)) with k by lia. exact Hz. }
    assert (A1 : forall j, base + Z.succ M < j -> at_ a2 j = at_ a j).
    { intros j Hj. destruct R2 as (_ & _ & F2 & _). rewrite F2 by lia. apply B3; lia. }
    assert (A2 : at_ a2 (base + Z.succ M) = Some y).
    { destruct R2 as (_ & _ & F2 & _). rewrite F2 by lia. exact B1. }
    assert (A3 : forall (P : A -> Prop), (forall k z, base <= k <= base + Z.succ M -> at_ a k = Some z -> P z) ->
                  forall k z, base <= k <= base + M -> at_ a2 k = Some z -> P z).
    { intros P HP k z Hk Hz. destruct R2 as (_ & _ & _ & Q2). apply (Q2 P) with (k := k); [|lia|exact Hz].
      destruct R1 as (_ & _ & _ & Q1). intros k' z' Hk' Hz'. apply (Q1 P) with (k := k'); [|lia|exact Hz'].
      intros k2 z2 Hk2. apply HP. lia. }
    apply (K' W).
    + replace (M + 1) with (Z.succ M) by lia. intros k Hk. apply (K2 W); [|lia].
      intros k' Hk' c u v Hc Hcn Hu Hv. unfold H_, child in *. rewrite B3 in Hu by lia. rewrite B3 in Hv by lia.
      apply (Hok k' ltac:(lia) c); auto. lia.
    + intros i j u v Hi Hij Hj Hu Hv.
      rewrite A1 in Hv by lia. destruct (Z.eq_dec i (base + Z.succ M)) as [->|].
      * rewrite A2 in Hu. injection Hu as <-. apply (Hlt (base + 0) j); auto; lia.
      * rewrite A1 in Hu by lia. apply (Ho i j); auto; lia.
    + intros i j u v Hi Hj Hu Hv.
      destruct (Z.eq_dec j (base + Z.succ M)) as [->|].
      * rewrite A2 in Hv. injection Hv as <-. revert i u Hi Hu. apply A3. exact Hmax.
      * rewrite A1 in Hv by lia. revert i u Hi Hu. apply A3. intros k z Hk Hz. apply (Hlt k j); auto; lia.
Qed.

Lemma sort_h_ok : forall a base n, 0 <= base -> base + n <= alen a -> 1 <= n < 2 ^ 30 ->
  exists a', sort_h cmp a base n = Ok a' /\ rearr base (base + n) a a' /\
    (strict_weak_order lt_ -> ord a' base (base + n - 1)).
Proof.
  intros a base n Hb Hlen Hn. unfold sort_h.
  pose proof (Z.div_mod n 2 ltac:(lia)) as D. pose proof (Z.mod_pos_bound n 2 ltac:(lia)) as D2.
  destruct (sort_h_build_ok (Z.to_nat (n / 2)) a base n) as (a1 & -> & R1 & K1); try lia. cbn [bind].
  destruct (sort_h_extract_ok (Z.to_nat (n - 1)) a1 base n) as (a2 & -> & R2 & K2); try lia.
  { rewrite (rearr_len _ _ _ _ R1). lia. }
  exists a2. split; [reflexivity|].
  replace (base + Z.of_nat (Z.to_nat (n - 1)) + 1) with (base + n) in * by lia.
  split; [eapply rearr_trans; eauto|].
  intros W. apply (K2 W).
  - intros k Hk. replace (Z.of_nat (Z.to_nat (n - 1)) + 1) with n by lia. apply (K1 W); [|exact Hk].
    intros k' Hk' c x y Hc Hcn. unfold child in Hc. lia.
  - intros i j x y Hi Hij Hj. lia.
  - intros i j x y Hi Hj. lia.
Qed.

(** ** Quick sort *)
Lemma scan_up_ok : forall f a p l r, 0 <= l -> r < alen a -> l <= r + 1 -> (Z.to_nat (r + 1 - l) < f)%nat ->
  exists l1, scan_up cmp f a p l r = Ok l1 /\ l <= l1 <= r + 1 /\
    (forall k x, l <= k < l1 -> at_ a k = Some x -> lt_ x p = true) /\
    (l1 <= r -> exists x, at_ a l1 = Some x /\ lt_ x p = false).
Proof.
  induction f; intros a p l r Hl Hr Hlr Hf; [lia|]. cbn [scan_up].
  destruct (Z.leb_spec l r) as [H|H].
  - destruct (at_some a l) as [x Ex]; [lia|]. rewrite (aget_at _ _ _ Ex). cbn [bind].
    destruct (cmp x p <? 0) eqn:C.
    + destruct (IHf a p (l + 1) r) as (l1 & E & B & K1 & K2); try lia.
      exists l1. split; [exact E|]. split; [lia|]. split; [|exact K2].
      intros k z Hk Hz. destruct (Z.eq_dec k l) as [->|]; [|apply (K1 k); auto; lia].
      rewrite Ex in Hz. injection Hz as <-. exact C.
    + exists l. split; [reflexivity|]. split; [lia|]. split; [intros; lia|]. intros _. exists x. auto.
  - exists l. split; [reflexivity|]. split; [lia|]. split; intros; lia.
Qed.
Lemma scan_down_ok : forall f a p l r, 0 <= l -> r < alen a -> l <= r + 1 -> (Z.to_nat (r + 1 - l) < f)%nat ->
  exists r1, scan_down cmp f a p l r = Ok r1 /\ l - 1 <= r1 <= r /\
    (forall k x, r1 < k <= r -> at_ a k = Some x -> lt_ p x = true) /\
    (l <= r1 -> exists x, at_ a r1 = Some x /\ lt_ p x = false).
Proof.
  induction f; intros a p l r Hl Hr Hlr Hf; [lia|]. cbn [scan_down].
  destruct (Z.leb_spec l r) as [H|H].
  - destruct (at_some a r) as [x Ex]; [lia|]. rewrite (aget_at _ _ _ Ex). cbn [bind].
    destruct (cmp p x <? 0) eqn:C.
    + destruct (IHf a p l (r - 1)) as (r1 & E & B & K1 & K2); try lia.
      exists r1. split; [exact E|]. split; [lia|]. split; [|exact K2].
      intros k z Hk Hz. destruct (Z.eq_dec k r) as [->|]; [|apply (K1 k); auto; lia].
      rewrite Ex in Hz. injection Hz as <-. exact C.
    + exists r. split; [reflexivity|]. split; [lia|]. split; [intros; lia|]. intros _. exists x. auto.
  - exists r. split; [reflexivity|]. split; [lia|]. split; intros; lia.
Qed.

Lemma swo_asym : strict_weak_order lt_ -> forall x y, lt_ x y = true -> lt_ y x = false.
Proof.
  intros W x y H. destruct (lt_ y x) eqn:E; auto.
  pose proof (swo_trans _ W _ _ _ H E). rewrite (swo_irrefl _ W) in H0. discriminate.
Qed.

Lemma partition_ok : forall f a p l r lo hi, 0 <= lo -> hi < alen a -> lo <= l -> r <= hi -> l <= r + 2 -> lo - 1 <= r -> l <= hi + 1 ->
  (Z.to_nat (r + 1 - l) < f)%nat ->
  exists a' l' r', partition_loop cmp f a p l r = Ok (a', l', r') /\ rearr l (r + 1) a a' /\
    l <= l' <= hi + 1 /\ lo - 1 <= r' <= r /\ r' < l' /\
    (strict_weak_order lt_ ->
       (forall k x, lo <= k < l -> at_ a k = Some x -> lt_ p x = false) ->
       (forall k x, r < k <= hi -> at_ a k = Some x -> lt_ x p = false) ->
       (forall k x, lo <= k < l' -> at_ a' k = Some x -> lt_ p x = false) /\
       (forall k x, r' < k <= hi -> at_ a' k = Some x -> lt_ x p = false)).
Proof.
  induction f; intros a p l r lo hi H0 Hhi Hl Hr Hlr Hr2 Hl2 Hf; [lia|]. cbn [partition_loop].
  destruct (Z.leb_spec l r) as [H|H].
  2:{ exists a, l, r. split; [reflexivity|]. split; [apply rearr_refl|]. repeat (split; [lia|]).
      intros W K1 K2. split; auto. }
  unfold alen in Hhi.
  destruct (scan_up_ok (S (length a)) a p l r) as (l1 & -> & B1 & U1 & U2); try (unfold alen; lia). cbn [bind].
  destruct (scan_down_ok (S (length a)) a p l1 r) as (r1 & -> & B2 & V1 & V2); try (unfold alen; lia). cbn [bind].
  destruct (Z.ltb_spec r1 l1) as [C|C].
  - exists a, l1, r1. split; [reflexivity|]. split; [apply rearr_refl|]. repeat (split; [lia|]).
    intros W K1 K2. split.
    + intros k x Hk Hx. destruct (Z_lt_dec k l); [apply (K1 k); auto; lia|].
      apply (swo_asym W). apply (U1 k); auto; lia.
    + intros k x Hk Hx. destruct (Z_lt_dec r k); [apply (K2 k); auto; lia|].
      apply (swo_asym W). apply (V1 k); auto; lia.
  - destruct (U2 ltac:(lia)) as (x & Ex & Cx). destruct (V2 ltac:(lia)) as (y & Ey & Cy).
    destruct (aswap_ok a l (r + 1) l1 r1 x y) as (a1 & -> & R1 & S1 & S2 & S3); try lia; auto. cbn [bind].
    destruct (IHf a1 p (l1 + 1) (r1 - 1) lo hi) as (a' & l' & r' & E & R & K1 & K2 & K3 & K4); try lia.
    { rewrite (rearr_len _ _ _ _ R1). unfold alen. lia. }
    exists a', l', r'. split; [exact E|]. split.
    { eapply rearr_trans; [exact R1|]. eapply rearr_weaken; [| |exact R]; lia. }
    repeat (split; [lia|]).
    intros W Q1 Q2. apply (K4 W).
    + intros k z Hk Hz. destruct (Z.eq_dec k l1) as [->|].
      * rewrite S1 in Hz. injection Hz as <-. exact Cy.
      * destruct (Z.eq_dec k r1) as [->|]; [lia|]. rewrite S3 in Hz by lia.
        destruct (Z_lt_dec k l); [apply (Q1 k); auto; lia|]. apply (swo_asym W). apply (U1 k); auto; lia.
    + intros k z Hk Hz. destruct (Z.eq_dec k r1) as [->|].
      * rewrite S2 in Hz. injection Hz as <-. exact Cx.
      * destruct (Z.eq_dec k l1) as [->|]; [lia|]. rewrite S3 in Hz by lia.
        destruct (Z_lt_dec r k); [apply (Q2 k); auto; lia|]. apply (swo_asym W). apply (V1 k); auto; lia.
Qed.

Lemma sort_q_rec_ok : forall f a lo hi depth limit, 0 <= lo -> hi < alen a -> lo <= hi + 1 -> hi - lo + 1 < 2 ^ 30 ->
  (Z.to_nat (limit - depth) < f)%nat ->
  exists a', sort_q_rec cmp f a lo hi depth limit = Ok a' /\ rearr lo (hi + 1) a a' /\
    (strict_weak_order lt_ -> ord a' lo hi).
Proof.
  induction f; intros a lo hi depth limit H0 Hhi Hlo Hn Hf; [lia|]. cbn [sort_q_rec].
  destruct (Z.ltb_spec lo hi) as [H|H].
  2:{ exists a. split; [reflexivity|]. split; [apply rearr_refl|]. intros W i j x y Hi Hij Hj. lia. }
  destruct (Z.leb_spec limit depth) as [HD|HD].
  { destruct (sort_h_ok a lo (hi - lo + 1)) as (a' & E & R & K); try lia.
    exists a'. split; [exact E|]. replace (lo + (hi - lo + 1)) with (hi + 1) in * by lia.
    replace (hi + 1 - 1) with hi in * by lia. auto. }
  destruct (at_some a lo) as [p Ep]; [lia|]. rewrite (aget_at _ _ _ Ep). cbn [bind].
  destruct (partition_ok (S (length a)) a p lo hi lo hi) as (a1 & l & r & -> & R1 & B1 & B2 & B3 & K1); try lia.
  { unfold alen in Hhi. lia. }
  cbn [bind].
  assert (P2 : exists a2, (if lo <? r then sort_q_rec cmp f a1 lo r (depth + 1) limit else Ok a1) = Ok a2 /\ rearr lo (r + 1) a1 a2 /\
               (strict_weak_order lt_ -> ord a2 lo r)).
  { destruct (Z.ltb_spec lo r) as [C|C].
    - apply IHf; try lia. rewrite (rearr_len _ _ _ _ R1). lia.
    - exists a1. split; [reflexivity|]. split; [apply rearr_refl|]. intros W i j x y Hi Hij Hj. lia. }
  destruct P2 as (a2 & -> & R2 & O2). cbn [bind].
  destruct (IHf a2 l hi (depth + 1) limit) as (a3 & E3 & R3 & O3); try lia.
  { rewrite (rearr_len _ _ _ _ R2), (rearr_len _ _ _ _ R1). lia. }
  exists a3. split; [exact E3|]. split.
  { eapply rearr_trans; [exact R1|]. eapply rearr_trans; [eapply rearr_weaken; [| |exact R2]; lia|].
    eapply rearr_weaken; [| |exact R3]; lia. }
  intros W. destruct (K1 W) as [Klo Khi]. { intros k x Hk. lia. } { intros k x Hk. lia. }
  assert (L2 : forall k x, lo <= k < l -> at_ a2 k = Some x -> lt_ p x = false).
  { intros k x Hk Hx. destruct R2 as (_ & _ & F2 & Q2). destruct (Z_le_dec k r) as [C|C].
    - apply (Q2 (fun x => lt_ p x = false)) with (k := k); auto; [|lia]. intros k' x' Hk'. apply Klo. lia.
    - rewrite F2 in Hx by lia. apply (Klo k); auto. }
  assert (G2 : forall k x, r < k <= hi -> at_ a2 k = Some x -> lt_ x p = false).
  { intros k x Hk Hx. destruct R2 as (_ & _ & F2 & _). rewrite F2 in Hx by lia. apply (Khi k); auto. }
  destruct R3 as (_ & _ & F3 & Q3).
  assert (L3 : forall k x, lo <= k < l -> at_ a3 k = Some x -> lt_ p x = false).
  { intros k x Hk Hx. rewrite F3 in Hx by lia. apply (L2 k); auto. }
  assert (G3 : forall k x, r < k <= hi -> at_ a3 k = Some x -> lt_ x p = false).
  { intros k x Hk Hx. destruct (Z_lt_dec k l).
    - rewrite F3 in Hx by lia. apply (G2 k); auto.
    - apply (Q3 (fun x => lt_ x p = false)) with (k := k); auto; [|lia]. intros k' x' Hk'. apply G2. lia. }
  intros i j x y Hi Hij Hj Hx Hy.
  destruct (Z_le_dec l i) as [C1|C1]; [apply (O3 W i j); auto|].
  destruct (Z_le_dec j r) as [C2|C2].
  - rewrite F3 in Hx, Hy by lia. apply (O2 W i j); auto.
  - apply (swo_negtrans _ W y p x); [apply (G3 j); auto; lia|apply (L3 i); auto; lia].
Qed.

Lemma sort_array_ok : forall a, Z.of_nat (length a) < 2 ^ 30 ->
  exists a', sort_array cmp a = Ok a' /\ Permutation a a' /\ (strict_weak_order lt_ -> ordered lt_ a').
Proof.
  intros a Hn. unfold sort_array. destruct (Z.leb_spec (Z.of_nat (length a)) 1) as [H|H].
  - exists a. split; [reflexivity|]. split; [reflexivity|]. intros W i j x y Hij Hx Hy.
    assert (j < length a)%nat by (apply nth_error_Some; congruence). lia.
  - unfold sort_q. destruct (sort_q_rec_ok (S (Z.to_nat (limit_loop 32 (Z.of_nat (length a)) 1 - 0))) a 0 (Z.of_nat (length a) - 1) 0 (limit_loop 32 (Z.of_nat (length a)) 1))
      as (a' & E & R & K); try (unfold alen; lia).
    exists a'. split; [exact E|]. destruct R as (P & L & _). split; [exact P|].
    intros W i j x y Hij Hx Hy. assert (j < length a')%nat by (apply nth_error_Some; congruence).
    apply (K W (Z.of_nat i) (Z.of_nat j)); try lia.
    + unfold at_. destruct (Z.ltb_spec (Z.of_nat i) 0); [lia|]. rewrite Nat2Z.id. exact Hx.
    + unfold at_. destruct (Z.ltb_spec (Z.of_nat j) 0); [lia|]. rewrite Nat2Z.id. exact Hy.
Qed.
End Sorts.
