From Coq Require Import ZArith List Bool Arith Lia Sorting.Sorted.
From Verif Require Import Outcome BitsModel BitsSpec BitsProofs TreeModel TreeApi TreeSpec TreeProofs TreeProofs2 TreeProofs3 TreeProofs4 CharsetModel CharsetSpec.
Import ListNotations.
Local Open Scope Z_scope.
Ltac Zify.zify_post_hook ::= idtac.

(** *** The tree, with integer keys *)
Lemma ccmp_lt : forall a b, ccmp a b < 0 <-> a < b.
Proof. intros. unfold ccmp. destruct (Z.ltb_spec b a), (Z.ltb_spec a b); lia. Qed.
Lemma ccmp_gt : forall a b, 0 < ccmp a b <-> b < a.
Proof. intros. unfold ccmp. destruct (Z.ltb_spec b a), (Z.ltb_spec a b); lia. Qed.
Lemma ccmp_eq : forall a b, ccmp a b = 0 <-> a = b.
Proof. intros. unfold ccmp. destruct (Z.ltb_spec b a), (Z.ltb_spec a b); lia. Qed.
Lemma ccmp_ordering : ordering ccmp.
Proof.
  constructor; intros.
  - now apply ccmp_eq. - rewrite ccmp_lt, ccmp_gt. tauto. - rewrite ccmp_lt in *. lia. - rewrite ccmp_eq in H. rewrite ccmp_lt in *. lia.
Qed.
Notation ent := (entry Z Z).
Definition tinv (t : core Z Z) : Prop := inv ccmp t.
Definition els (t : core Z Z) : list ent := elements (root t).
Definition klt (k : Z) (e : ent) : Prop := e_key e < k.
Definition kgt (k : Z) (e : ent) : Prop := k < e_key e.
Lemma ekey_eq : forall e : ent, ekey e = e_key e. Proof. reflexivity. Qed.
Lemma lo_klt : forall k l, Forall (lo ccmp k) l <-> Forall (klt k) l.
Proof. intros. split; apply Forall_impl; intros a; unfold lo, klt; rewrite ccmp_lt; auto. Qed.
Lemma hi_kgt : forall k l, Forall (hi ccmp k) l <-> Forall (kgt k) l.
Proof. intros. split; apply Forall_impl; intros a; unfold hi, kgt; rewrite ccmp_gt; auto. Qed.
Definition esorted (l : list ent) : Prop := StronglySorted (fun a b => e_key a < e_key b) l.
Lemma tinv_sorted : forall t, tinv t -> esorted (els t).
Proof. intros t H. destruct H as [_ H _ _ _]. unfold esorted, els. revert H. apply StronglySorted_ind; intros; constructor; auto. eapply Forall_impl; [|eassumption]. intros x. unfold elt. rewrite ccmp_lt. auto. Qed.
Lemma esorted_app : forall a b, esorted (a ++ b) <-> esorted a /\ esorted b /\ Forall (fun x => Forall (fun y => e_key x < e_key y) b) a.
Proof. intros. apply SS_app_iff. Qed.
Lemma esorted_mid : forall a x b, esorted (a ++ x :: b) -> Forall (klt (e_key x)) a /\ Forall (kgt (e_key x)) b.
Proof.
  intros a x b H. apply esorted_app in H. destruct H as (_ & H & F). split.
  - eapply Forall_impl; [|exact F]. intros y Hy. inversion Hy; auto.
  - inversion H; auto.
Qed.
(** a split around a key is determined *)
Lemma part_unique : forall (P : ent -> Prop) (a b a' b' : list ent), a ++ b = a' ++ b' -> Forall P a -> Forall (fun x => ~ P x) b -> Forall P a' -> Forall (fun x => ~ P x) b' -> a = a' /\ b = b'.
Proof.
  intros P. induction a as [|x a IH]; intros b a' b' E A B A' B'.
  - destruct a' as [|y a']; [auto|]. cbn in E. subst b. inversion B; subst. inversion A'; subst. contradiction.
  - destruct a' as [|y a'].
    + cbn in E. subst b'. inversion A; subst. inversion B'; subst. contradiction.
    + cbn in E. inversion E; subst. inversion A; subst. inversion A'; subst. destruct (IH b a' b') as [-> ->]; auto.
Qed.
Lemma kgt_nle : forall k l, Forall (kgt k) l -> Forall (fun e => ~ e_key e <= k) l.
Proof. intros k l. apply Forall_impl. unfold kgt. intros; lia. Qed.
Lemma klt_le : forall k l, Forall (klt k) l -> Forall (fun e : ent => e_key e <= k) l.
Proof. intros k l. apply Forall_impl. unfold klt. intros; lia. Qed.
(** the three-way split around a key *)
Lemma near_spec : forall t k, tinv t -> exists a m b, els t = a ++ m ++ b /\ Forall (klt k) a /\ Forall (kgt k) b /\
  (m = [] \/ exists e, m = [e] /\ e_key e = k) /\ core_near ccmp t k = (hd_error m, hd_error (rev a), hd_error b).
Proof.
  intros t k I. destruct (core_get_spec ccmp ccmp_ordering t k I) as (a & b & m & E & A & B & N & C). exists a, m, b. rewrite lo_klt in A. rewrite hi_kgt in B. do 3 (split; auto).
  destruct C as [(-> & G)|(e & -> & Ke & G)]; rewrite G in N; split; auto.
  right. exists e. rewrite ccmp_eq in Ke. auto.
Qed.
Lemma next_spec : forall t k a b, tinv t -> els t = a ++ b -> Forall (fun e : ent => e_key e <= k) a -> Forall (kgt k) b -> next_entry t k = hd_error b.
Proof.
  intros t k a b I E A B. destruct (near_spec t k I) as (a1 & m & b1 & E1 & A1 & B1 & C & N). unfold next_entry. rewrite N. cbn [snd].
  rewrite E in E1. rewrite app_assoc in E1. destruct (part_unique (fun e => e_key e <= k) a b (a1 ++ m) b1) as [_ ->]; auto using kgt_nle.
  apply Forall_app. split; [now apply klt_le|]. destruct C as [->|(e & -> & <-)]; auto. constructor; [lia|auto].
Qed.
Lemma delete_spec : forall t a x b, tinv t -> els t = a ++ x :: b -> exists t', core_delete ccmp t (e_key x) = Ok (t', Some x) /\ tinv t' /\ els t' = a ++ b.
Proof.
  intros t a x b I E. pose proof (tinv_sorted t I) as So. rewrite E in So. destruct (esorted_mid _ _ _ So) as [A B].
  destruct (core_delete_spec ccmp ccmp_ordering t (e_key x) I) as (t' & a1 & b1 & m & D & I' & E1 & E2 & A1 & B1 & C). rewrite lo_klt in A1. rewrite hi_kgt in B1. fold (els t) in E1. rewrite E in E1.
  assert (E3 : a = a1 /\ x :: b = m ++ b1).
  { apply (part_unique (fun e => e_key e < e_key x) a (x :: b) a1 (m ++ b1)); auto.
    - constructor; [lia|]. eapply Forall_impl; [|exact B]. unfold kgt. intros; lia.
    - apply Forall_app. split; [|eapply Forall_impl; [|exact B1]; unfold kgt; intros; lia]. destruct C as [->|(e & -> & K)]; auto. rewrite ccmp_eq in K. constructor; auto. unfold e_key in *. unfold ekey in K. lia. }
  destruct E3 as [<- E3]. destruct C as [->|(e & -> & K)].
  - cbn in E3. destruct b1 as [|y b1]; [discriminate|]. inversion E3; subst. inversion B1; subst. unfold kgt in *. lia.
  - cbn in E3. inversion E3; subst. exists t'. auto.
Qed.
Lemma create_spec : forall t k a b, tinv t -> num_entries t < 2147483647 -> els t = a ++ b -> Forall (klt k) a -> Forall (kgt k) b ->
  exists t' i, core_create ccmp t k = Ok (t', (i, k, None)) /\ tinv t' /\ els t' = a ++ (i, k, None) :: b.
Proof.
  intros t k a b I Nn E A B. destruct (core_create_spec ccmp ccmp_ordering t k I Nn) as (t' & e & a1 & b1 & D & I' & K & A1 & B1 & E1 & C). rewrite lo_klt in A1. rewrite hi_kgt in B1. rewrite ccmp_eq in K. rewrite ekey_eq in K.
  fold (els t') in E1. destruct C as [->|(E2 & Nv & Ke)].
  - exfalso. rewrite E in E1. assert (Hx : In e (a ++ b)) by (rewrite E1; apply in_elt). apply in_app_or in Hx. rewrite Forall_forall in A, B. destruct Hx as [Hx|Hx]; [apply A in Hx|apply B in Hx]; unfold klt, kgt in Hx; lia.
  - fold (els t) in E2. rewrite E in E2. destruct (part_unique (fun e => e_key e <= k) a b a1 b1) as [<- <-]; auto using kgt_nle, klt_le.
    destruct e as [[i kk] v]. cbn in Nv, K. subst. exists t', i. auto.
Qed.
Lemma store_spec : forall t a e b v, tinv t -> els t = a ++ e :: b -> tinv (store t e v) /\ els (store t e v) = a ++ (entry_id e, e_key e, Some v) :: b.
Proof.
  intros t a e b v I E. split; [apply set_inv; auto|]. unfold els, store. cbn [root]. pose proof (inv_ids _ _ I) as Nd. rewrite set_elements by auto. fold (els t) in *. rewrite E in *. now apply upd_mid.
Qed.
Lemma num_els : forall t, tinv t -> num_entries t = Z.of_nat (length (els t)).
Proof. intros t I. apply (inv_num _ _ I). Qed.

(** *** Ranges *)
Definition kv (e : ent) : Z * Z := (e_key e, e_val e).
Definition rgs (t : core Z Z) : list (Z * Z) := map kv (els t).
Fixpoint gapped (b : Z) (l : list (Z * Z)) : Prop :=
  match l with [] => True | (x, y) :: r => b <= x <= y /\ y <= 0x10ffff /\ gapped (y + 2) r end.
Fixpoint absorb_list (to : Z) (l : list (Z * Z)) : Z * list (Z * Z) :=
  match l with
  | [] => (to, [])
  | (x, y) :: r => if to + 1 <? x then (to, l) else if to <? y then (y, r) else absorb_list to r
  end.
Lemma absorb_ok : forall post fuel t e pre hi to, tinv t -> els t = pre ++ e :: post -> e_key e <= hi -> Forall (kgt hi) post -> (length post < fuel)%nat ->
  exists t' post', absorb fuel t e hi to = Ok t' /\ tinv t' /\
    els t' = pre ++ (entry_id e, e_key e, Some (fst (absorb_list to (map kv post)))) :: post' /\ map kv post' = snd (absorb_list to (map kv post)).
Proof.
  induction post as [|h post IH]; intros fuel t e pre hi to I E He Hp Hf; (destruct fuel as [|fuel]; [cbn in Hf; lia|]); cbn [absorb].
  - pose proof (tinv_sorted t I) as So. rewrite E in So. destruct (esorted_mid _ _ _ So) as [A _].
    rewrite (next_spec t hi (pre ++ [e]) []); auto; [|rewrite <- app_assoc; auto|].
    + cbn [hd_error]. destruct (store_spec t pre e [] to I E) as [I' E']. exists (store t e to), []. auto.
    + apply Forall_app. split; [eapply Forall_impl; [|exact A]; unfold klt; intros; lia|constructor; auto].
  - pose proof (tinv_sorted t I) as So. rewrite E in So. destruct (esorted_mid _ _ _ So) as [A _].
    rewrite (next_spec t hi (pre ++ [e]) (h :: post)); auto; [|rewrite <- app_assoc; auto|].
    2:{ apply Forall_app. split; [eapply Forall_impl; [|exact A]; unfold klt; intros; lia|constructor; auto]. }
    cbn [hd_error map absorb_list]. change (kv h) with (e_key h, e_val h). cbn iota. destruct (Z.ltb_spec (to + 1) (e_key h)) as [L|L].
    + destruct (store_spec t pre e (h :: post) to I E) as [I' E']. exists (store t e to), (h :: post). auto.
    + assert (E1 : els t = (pre ++ [e]) ++ h :: post) by (rewrite <- app_assoc; auto).
      destruct (delete_spec t _ _ _ I E1) as (t1 & D & I1 & E2). rewrite D. cbn [bind fst]. rewrite <- app_assoc in E2. cbn [app] in E2.
      destruct (Z.ltb_spec to (e_val h)) as [L2|L2].
      * destruct (store_spec t1 pre e post (e_val h) I1 E2) as [I' E']. exists (store t1 e (e_val h)), post. auto.
      * inversion Hp; subst. apply (IH fuel t1 e pre (e_key h) to); auto; [unfold kgt in *; lia| |cbn in Hf; lia].
        destruct (esorted_mid (pre ++ [e]) h post) as [_ B]; auto. now rewrite <- E1, E.
Qed.
(** the new list of ranges *)
Definition add_list (from to : Z) (pre : list (Z * Z)) (mid : option (Z * Z)) (post : list (Z * Z)) : list (Z * Z) :=
  match mid with
  | Some (x, y) => if to <=? y then pre ++ (x, y) :: post else pre ++ (x, fst (absorb_list to post)) :: snd (absorb_list to post)
  | None => pre ++ (from, fst (absorb_list to post)) :: snd (absorb_list to post)
  end.
Lemma map_kv_app : forall a b, map kv (a ++ b) = map kv a ++ map kv b. Proof. intros. apply map_app. Qed.
Lemma hd_rev_split : forall {A} (l : list A) x, hd_error (rev l) = Some x -> exists l', l = l' ++ [x].
Proof. intros A l x H. destruct (rev l) as [|y r] eqn:E; [discriminate|]. cbn in H. inversion H; subst. exists (rev r). rewrite <- (rev_involutive l), E. reflexivity. Qed.
Lemma hd_rev_none : forall {A} (l : list A), hd_error (rev l) = None -> l = [].
Proof. intros A l H. destruct (rev l) eqn:E; [|discriminate]. rewrite <- (rev_involutive l), E. reflexivity. Qed.

Lemma add_large_existing : forall t e pre post to, tinv t -> els t = pre ++ e :: post -> 
  exists t', (if to <=? e_val e then Ok t else absorb (S (Z.to_nat (num_entries t))) t e (e_key e) to) = Ok t' /\ tinv t' /\
    rgs t' = add_list 0 to (map kv pre) (Some (kv e)) (map kv post).
Proof.
  intros t e pre post to I E. unfold add_list. change (kv e) with (e_key e, e_val e). cbn iota. destruct (Z.leb_spec to (e_val e)).
  - exists t. split; auto. split; auto. unfold rgs. rewrite E, map_kv_app. reflexivity.
  - pose proof (tinv_sorted t I) as So. rewrite E in So. destruct (esorted_mid _ _ _ So) as [_ B].
    destruct (absorb_ok post (S (Z.to_nat (num_entries t))) t e pre (e_key e) to) as (t' & p' & X & I' & E' & P'); auto; try lia.
    { rewrite num_els, Nat2Z.id, E, app_length by auto. cbn [length]. lia. }
    exists t'. split; auto. split; auto. unfold rgs. rewrite E', map_kv_app. cbn [map]. rewrite P'. reflexivity.
Qed.
Lemma add_large_ok : forall t from to, tinv t -> num_entries t < 2147483647 -> 0 < to ->
  exists t' pre mid post, add_large t from to = Ok t' /\ tinv t' /\ rgs t = pre ++ (match mid with Some e => [e] | None => [] end) ++ post /\
    (match mid with
     | Some (x, y) => x <= from /\ (x = from \/ from - 1 <= y) /\ Forall (fun r => from < fst r) post
     | None => Forall (fun r => fst r < from) pre /\ Forall (fun r => from < fst r) post /\ (pre = [] \/ exists p x y, pre = p ++ [(x, y)] /\ y < from - 1)
     end) /\
    rgs t' = add_list from to pre mid post.
Proof.
  intros t from to I Nn T. destruct (near_spec t from I) as (a & m & b & E & A & B & C & N). unfold add_large. rewrite N. cbn [bind].
  assert (Bk : Forall (fun r => from < fst r) (map kv b)). { apply Forall_map. eapply Forall_impl; [|exact B]. auto. }
  assert (Ak : Forall (fun r => fst r < from) (map kv a)). { apply Forall_map. eapply Forall_impl; [|exact A]. auto. }
  destruct C as [->|(e & -> & Ke)]; cbn [hd_error].
  - cbn [app] in E. assert (New : forall P : Prop, P -> (a = [] \/ exists p l, a = p ++ [l] /\ e_val l < from - 1) ->
      exists t' pre mid post, (do te <- core_create ccmp t from; if to <=? e_val (snd te) then Ok (fst te) else absorb (S (Z.to_nat (num_entries (fst te)))) (fst te) (snd te) (e_key (snd te)) to) = Ok t' /\ tinv t' /\ rgs t = pre ++ (match mid with Some e => [e] | None => [] end) ++ post /\ (match mid with
     | Some (x, y) => x <= from /\ (x = from \/ from - 1 <= y) /\ Forall (fun r => from < fst r) post
     | None => Forall (fun r => fst r < from) pre /\ Forall (fun r => from < fst r) post /\ (pre = [] \/ exists p x y, pre = p ++ [(x, y)] /\ y < from - 1)
     end) /\ rgs t' = add_list from to pre mid post).
    { intros _ _ Hl. destruct (create_spec t from a b I Nn E A B) as (t1 & i & D & I1 & E1). rewrite D. cbn [bind fst snd].
      destruct (add_large_existing t1 (i, from, None) a b to I1 E1) as (t' & X & I' & R'). cbn [e_key e_val fst snd] in X |- *.
      exists t', (map kv a), None, (map kv b). split; auto. split; auto. split; [unfold rgs; rewrite E, map_kv_app; reflexivity|]. split; [split; auto; split; auto|].
      - destruct Hl as [->|(p & l & -> & V)]; auto. right. exists (map kv p), (e_key l), (e_val l). rewrite map_kv_app. auto.
      - rewrite R'. unfold add_list. cbn [kv e_key e_val fst snd]. destruct (Z.leb_spec to 0); [lia|reflexivity]. }
    destruct (hd_error (rev a)) as [l|] eqn:R.
    + destruct (hd_rev_split _ _ R) as (a' & ->). destruct (Z.ltb_spec (e_val l) (from - 1)).
      * apply (New True); auto. right. exists a', l. auto.
      * cbn [bind fst snd]. rewrite <- app_assoc in E. cbn [app] in E. destruct (add_large_existing t l a' b to I E) as (t' & X & I' & R').
        exists t', (map kv a'), (Some (kv l)), (map kv b). split; auto. split; auto. split; [unfold rgs; rewrite E, map_kv_app; reflexivity|]. split.
        -- unfold kv. apply Forall_app in A. destruct A as [_ A]. inversion A; subst. unfold klt in *. split; [lia|]. split; auto.
        -- rewrite R'. reflexivity.
    + apply (New True); auto. left. now apply hd_rev_none.
  - cbn [bind fst snd]. cbn [app] in E. destruct (add_large_existing t e a b to I E) as (t' & X & I' & R').
    exists t', (map kv a), (Some (kv e)), (map kv b). split; auto. split; auto. split; [unfold rgs; rewrite E, map_kv_app; reflexivity|]. split.
    + unfold kv. split; [lia|]. auto.
    + rewrite R'. reflexivity.
Qed.
