(** Iteration, clearing, copying and checking of compact tries. *)
From Coq Require Import ZArith List Bool Arith Lia Permutation.
From Verif Require Import Outcome BitsModel BitsSpec BitsProofs BitsProofs3 SparseModel SparseNode SparseTrie SparseTrie2.
Import ListNotations.
Local Open Scope Z_scope.
Ltac Zify.zify_post_hook ::= idtac.

Section Trie3.
Context {P : Type}.
Implicit Types (h : heap P).

Definition lv (f : nat) (n : node) (s c : nat) : list nat := flat_map (fun i => sub f (slot n i)) (seq s c).
Lemma lv_all : forall f n, leaves (S f) n = lv f n 0 32. Proof. reflexivity. Qed.
Lemma lv_S : forall f n s c, lv f n s (S c) = sub f (slot n s) ++ lv f n (S s) c. Proof. reflexivity. Qed.
Lemma lv_app : forall f n c s d, lv f n s (c + d) = lv f n s c ++ lv f n (s + c) d.
Proof. intros. unfold lv. now rewrite seq_app, flat_map_app. Qed.
Lemma lv_nil : forall f n c s, (forall i, (s <= i < s + c)%nat -> tb (emap n) i = false) -> lv f n s c = [].
Proof. intros f n. induction c as [|c IH]; intros s H; auto. rewrite lv_S, IH by (intros; apply H; lia). unfold slot. rewrite H by lia. reflexivity. Qed.
Lemma entry_at : forall n i e, slot n i = Some e -> node_entry n (cnt (emap n) i) = Ok e.
Proof. intros n i e S. unfold node_entry. apply aget_ok. unfold slot in S. destruct (tb (emap n) i); [exact S|discriminate]. Qed.
Lemma hd_app : forall A (x y : list A), x <> [] -> hd_error (x ++ y) = hd_error x.
Proof. intros A [|a x] y H; [contradiction|reflexivity]. Qed.

Lemma first_rec_ok : forall f level p h n, wf f level p h n -> first_rec f n = Ok (hd_error (leaves f n)).
Proof.
  induction f as [|f IH]; intros level p h n W; [destruct W|]. destruct W as (W & Ne & S). cbn [first_rec]. rewrite (proj2 (Z.eqb_neq _ _) Ne).
  destruct (lowest_exists (emap n) (w32_word _ (wn_e n W)) (proj2 (Z.eqb_neq _ _) Ne)) as (i & Lo). rewrite (lowest_ok _ i (w32_word _ (wn_e n W)) Lo). destruct Lo as (Hi & T & B).
  assert (Hi32 : (i < 32)%nat) by (destruct (Nat.lt_ge_cases i 32); auto; rewrite (w32_high _ i (wn_e n W)) in T by lia; discriminate).
  specialize (S i Hi32 T). assert (Lv : leaves (Datatypes.S f) n = sub f (slot n i) ++ lv f n (Datatypes.S i) (31 - i)).
  { rewrite lv_all. replace 32%nat with (i + (1 + (31 - i)))%nat by lia. rewrite lv_app. cbn [Nat.add]. rewrite lv_S. rewrite (lv_nil f n i 0) by (intros; apply B; lia). reflexivity. }
  rewrite Lv, is_leaf_ok by (auto; lia). destruct (tb (lmap n) i).
  - destruct S as (a & k & E & _). rewrite (entry_slot n i _ W Hi32 E), E. reflexivity.
  - destruct S as (m & E & Wm & _). rewrite (entry_slot n i _ W Hi32 E), E. cbn [bind as_node sub]. rewrite hd_app by (eapply leaves_nonempty; eauto). eapply IH; eauto.
Qed.
Lemma last_cons_app : forall (l : list nat) x d, l <> [] -> last (x ++ l) d = last l d.
Proof. intros l x d H. induction x as [|y x IHx]; auto. cbn [app last]. destruct (x ++ l) eqn:E; [apply app_eq_nil in E; destruct E; contradiction|auto]. Qed.
Definition last_error (l : list nat) : option nat := match l with [] => None | x :: r => Some (last r x) end.
Lemma last_error_app : forall x l, l <> [] -> last_error (x ++ l) = last_error l.
Proof.
  intros [|y x] [|z l] H; try contradiction; auto. cbn [app last_error]. f_equal. rewrite last_cons_app by discriminate. destruct l; auto. cbn [last]. destruct l; auto.
  assert (forall (q : list nat) u v, q <> [] -> last q u = last q v) as Ld. { induction q as [|w q IHq]; intros u v Hq; [contradiction|]. cbn [last]. destruct q; auto. apply IHq. discriminate. }
  apply Ld. discriminate.
Qed.
Lemma last_rec_ok : forall f level p h n, wf f level p h n -> last_rec f n = Ok (last_error (leaves f n)).
Proof.
  induction f as [|f IH]; intros level p h n W; [destruct W|]. destruct W as (W & Ne & S). cbn [last_rec]. rewrite (proj2 (Z.eqb_neq _ _) Ne).
  destruct (highest_exists (emap n) (w32_word _ (wn_e n W)) (proj2 (Z.eqb_neq _ _) Ne)) as (i & Lo). rewrite (highest_ok _ i (w32_word _ (wn_e n W)) Lo). destruct Lo as (Hi & T & B).
  assert (Hi32 : (i < 32)%nat) by (destruct (Nat.lt_ge_cases i 32); auto; rewrite (w32_high _ i (wn_e n W)) in T by lia; discriminate).
  specialize (S i Hi32 T). assert (Lv : leaves (Datatypes.S f) n = lv f n 0 i ++ sub f (slot n i)).
  { rewrite lv_all. replace 32%nat with (i + (1 + (31 - i)))%nat by lia. rewrite lv_app. cbn [Nat.add]. rewrite lv_S. rewrite (lv_nil f n (31 - i)) by (intros; apply B; lia). now rewrite app_nil_r. }
  rewrite Lv, is_leaf_ok by (auto; lia). destruct (tb (lmap n) i).
  - destruct S as (a & k & E & _). rewrite (entry_slot n i _ W Hi32 E), E. cbn [bind as_leaf sub]. rewrite last_error_app by discriminate. reflexivity.
  - destruct S as (m & E & Wm & _). rewrite (entry_slot n i _ W Hi32 E), E. cbn [bind as_node sub]. rewrite last_error_app by (eapply leaves_nonempty; eauto). eapply IH; eauto.
Qed.

Definition next_loop (rec : node -> bool -> res (option nat)) (n : node) (over : bool) (ind : nat) : nat -> nat -> res (option nat) :=
  fix loop (c i : nat) : res (option nat) :=
       match c with
       | O => Ok None
       | S c' =>
         if negb (node_has_arc n i) then loop c' (S i)
         else if node_arc_is_leaf n i then
           if negb over && (i =? ind)%nat then loop c' (S i)
           else do e <- node_entry n (node_index2off n i); do a <- as_leaf e; Ok (Some a)
         else
           do e <- node_entry n (node_index2off n i);
           do m <- as_node e;
           do r <- rec m (over || (ind <? i)%nat);
           match r with Some a => Ok (Some a) | None => loop c' (S i) end
       end.
Lemma next_loop_S : forall rec n over ind c i, next_loop rec n over ind (S c) i =
         if negb (node_has_arc n i) then next_loop rec n over ind c (S i)
         else if node_arc_is_leaf n i then
           if negb over && (i =? ind)%nat then next_loop rec n over ind c (S i)
           else do e <- node_entry n (node_index2off n i); do a <- as_leaf e; Ok (Some a)
         else
           do e <- node_entry n (node_index2off n i);
           do m <- as_node e;
           do r <- rec m (over || (ind <? i)%nat);
           match r with Some a => Ok (Some a) | None => next_loop rec n over ind c (S i) end.
Proof. reflexivity. Qed.
Lemma next_rec_S : forall f n key level over, next_rec (S f) n key level over =
  let ind := if over then 0%nat else key2index key level in next_loop (fun m o => next_rec f m key (S level) o) n over ind (MAX_NODE_SIZE - ind)%nat ind.
Proof. reflexivity. Qed.

(** past the current position, the loop returns the first leaf *)
Lemma next_loop_over : forall f level p h n over ind rec, wf (S f) level p h n ->
  (forall i m, (i < 32)%nat -> slot n i = Some (ENode m) -> rec m true = Ok (hd_error (leaves f m))) ->
  forall c i, (i + c = 32)%nat -> (over = true \/ (ind < i)%nat) -> next_loop rec n over ind c i = Ok (hd_error (lv f n i c)).
Proof.
  intros f level p h n over ind rec (W & Ne & S) R. induction c as [|c IH]; intros i Hc Ho; [reflexivity|]. rewrite next_loop_S, lv_S. rewrite has_arc_ok, is_leaf_ok by (auto; lia).
  destruct (tb (emap n) i) eqn:T; cbn [negb].
  2:{ rewrite IH by (try lia; (destruct Ho as [Ho|Ho]; [now left|right; lia])). unfold slot. rewrite T. reflexivity. }
  assert (Hi : (i < 32)%nat) by lia. specialize (S i Hi T). destruct (tb (lmap n) i).
  - destruct S as (a & k & E & _). replace (negb over && (i =? ind)%nat) with false. 2:{ destruct Ho as [->|Ho]; auto. destruct (Nat.eqb_spec i ind); [lia|]. now rewrite andb_false_r. }
    rewrite (entry_slot n i _ W Hi E), E. reflexivity.
  - destruct S as (m & E & Wm & _). rewrite (entry_slot n i _ W Hi E). cbn [bind as_node]. replace (over || (ind <? i)%nat) with true. 2:{ destruct Ho as [->|Ho]; auto. destruct (Nat.ltb_spec ind i); [now rewrite orb_true_r|lia]. }
    rewrite (R i m Hi E). cbn [bind]. rewrite E. cbn [sub]. destruct (leaves f m) as [|x l] eqn:Lv; [now apply leaves_nonempty in Wm|]. reflexivity.
Qed.
Lemma next_rec_over : forall f level p h n key lev, wf f level p h n -> next_rec f n key lev true = Ok (hd_error (leaves f n)).
Proof.
  induction f as [|f IH]; intros level p h n key lev W; [destruct W|]. rewrite next_rec_S. cbn zeta. cbv iota. eapply next_loop_over; eauto.
  intros i m Hi E. destruct W as (W & _ & S). specialize (S i Hi (slot_arc _ _ _ E)). destruct (tb (lmap n) i).
  - destruct S as (a & k & E2 & _). congruence.
  - destruct S as (m' & E2 & Wm & _). rewrite E in E2. injection E2 as <-. eapply IH; eauto.
Qed.
Lemma nodup_mid : forall (A B A' B' : list nat) a, NoDup (A ++ a :: B) -> A ++ a :: B = A' ++ a :: B' -> A = A' /\ B = B'.
Proof.
  intros A B A' B' a N E. revert A' E N. induction A as [|x A IH]; intros [|y A'] E N; cbn [app] in *.
  - injection E as E. auto.
  - injection E as E1 E2. subst y B. inversion N as [|? ? Ni ?]. exfalso. apply Ni. rewrite in_app_iff. right. now left.
  - injection E as E1 E2. subst x. inversion N as [|? ? Ni ?]. exfalso. apply Ni. rewrite in_app_iff. right. now left.
  - injection E as E1 E2. subst y. inversion N as [|? ? Ni N2]. destruct (IH A' E2 N2) as (X & Y). subst. auto.
Qed.
Lemma next_rec_ok : forall f level p h n key A a B, (level + f = 13)%nat -> wf f level p h n -> agree level key p ->
  leaves f n = A ++ a :: B -> kat h a = Some key -> next_rec f n key level false = Ok (hd_error B).
Proof.
  induction f as [|f IH]; intros level p h n key A a B HL W Ag Lv K; [destruct W|]. pose proof W as W0. pose proof (leaves_nodup _ _ _ _ _ W) as ND. destruct W as (W & Ne & S).
  rewrite next_rec_S. cbn zeta. cbv iota. set (ind := key2index key level). assert (Hi : (ind < 32)%nat) by apply key2index_lt.
  assert (Ia : In a (sub f (slot n ind))).
  { assert (Ia : In a (leaves (Datatypes.S f) n)) by (rewrite Lv, in_app_iff; right; now left). apply in_leaves in Ia. destruct Ia as (j & Hj & Ia). destruct (sub_index _ _ _ _ _ _ _ _ W0 Hj Ia K) as (_ & <-). exact Ia. }
  assert (Sp : leaves (Datatypes.S f) n = lv f n 0 ind ++ sub f (slot n ind) ++ lv f n (Datatypes.S ind) (31 - ind)).
  { rewrite lv_all. replace 32%nat with (ind + (1 + (31 - ind)))%nat at 1 by lia. rewrite lv_app. cbn [Nat.add]. now rewrite lv_S. }
  assert (R : forall i m, (i < 32)%nat -> slot n i = Some (ENode m) -> next_rec f m key (Datatypes.S level) true = Ok (hd_error (leaves f m))).
  { intros i m Hi' E. specialize (S i Hi' (slot_arc _ _ _ E)). destruct (tb (lmap n) i).
    - destruct S as (? & ? & E2 & _). congruence.
    - destruct S as (m' & E2 & Wm & _). rewrite E in E2. injection E2 as <-. eapply next_rec_over; eauto. }
  assert (Rest : next_loop (fun m o => next_rec f m key (Datatypes.S level) o) n false ind (31 - ind) (Datatypes.S ind) = Ok (hd_error (lv f n (Datatypes.S ind) (31 - ind)))).
  { eapply next_loop_over; eauto. lia. }
  change MAX_NODE_SIZE with 32%nat. replace (32 - ind)%nat with (Datatypes.S (31 - ind)) by lia. rewrite next_loop_S, has_arc_ok, is_leaf_ok by (auto; lia).
  destruct (slot n ind) as [e|] eqn:E; [|destruct Ia]. pose proof (slot_arc _ _ _ E) as T. rewrite T. cbn [negb]. specialize (S ind Hi T). destruct (tb (lmap n) ind).
  - destruct S as (b & k & E2 & _). rewrite E in E2. injection E2 as ->. cbn [sub] in Ia. destruct Ia as [<-|[]]. rewrite Nat.eqb_refl. cbn [negb andb]. rewrite Rest.
    cbn [sub app] in Sp. rewrite Lv in Sp, ND. apply nodup_mid in Sp; auto. destruct Sp as (_ & ->). reflexivity.
  - destruct S as (m & E2 & Wm & _). rewrite E in E2. injection E2 as ->. cbn [sub] in Ia, Sp. rewrite (entry_slot n ind _ W Hi E). cbn [bind as_node]. rewrite Nat.ltb_irrefl. cbn [orb].
    apply in_split in Ia. destruct Ia as (A1 & B1 & Lm). rewrite (IH (Datatypes.S level) (ext p level ind) h m key A1 a B1) by (auto; try lia; apply agree_ext_S; auto). cbn [bind].
    rewrite Lm in Sp. rewrite Lv in Sp, ND. rewrite <- app_assoc in Sp. cbn [app] in Sp. rewrite app_assoc in Sp. apply nodup_mid in Sp; auto. destruct Sp as (_ & ->).
    destruct B1 as [|b B1]; [exact Rest|reflexivity].
Qed.

(** ** clearing *)
Definition clear_loop (rec : heap P -> node -> res (heap P)) (n : node) (clearer : leaf P -> leaf P) : nat -> nat -> nat -> heap P -> res (heap P) :=
  fix loop (c i off : nat) (h : heap P) : res (heap P) :=
       match c with
       | O => Ok h
       | S c' =>
         if node_has_arc n i then
           do e <- node_entry n off;
           do h1 <- (if node_arc_is_leaf n i then
                       do a <- as_leaf e; do l <- aget h a; aset h a (clearer l)
                     else do m <- as_node e; rec h m);
           loop c' (S i) (S off) h1
         else loop c' (S i) off h
       end.
Lemma clear_loop_S : forall rec n clearer c i off h, clear_loop rec n clearer (S c) i off h =
  if node_has_arc n i then
           do e <- node_entry n off;
           do h1 <- (if node_arc_is_leaf n i then
                       do a <- as_leaf e; do l <- aget h a; aset h a (clearer l)
                     else do m <- as_node e; rec h m);
           clear_loop rec n clearer c (S i) (S off) h1
         else clear_loop rec n clearer c (S i) off h.
Proof. reflexivity. Qed.
Lemma clear_rec_S : forall f h n clearer, clear_rec (S f) h n clearer = clear_loop (fun h m => clear_rec f h m clearer) n clearer MAX_NODE_SIZE 0 0 h.
Proof. intros. cbn [clear_rec]. unfold clear_loop. reflexivity. Qed.
Lemma clear_rec_ok : forall clearer, (forall l : leaf P, leaf_key (clearer l) = leaf_key l) -> forall f level p h n, wf f level p h n ->
  exists h', clear_rec f h n clearer = Ok h' /\ length h' = length h /\ (forall a, kat h' a = kat h a) /\ forall a, ~ In a (leaves f n) -> nth_error h' a = nth_error h a.
Proof.
  intros clearer Hc. induction f as [|f IH]; intros level p h n W; [destruct W|].
  rewrite clear_rec_S.
  assert (G : forall c i h0, (i + c = 32)%nat -> wf (S f) level p h0 n -> exists h', clear_loop (fun h m => clear_rec f h m clearer) n clearer c i (cnt (emap n) i) h0 = Ok h' /\ length h' = length h0 /\ (forall a, kat h' a = kat h0 a) /\
     forall a, ~ In a (lv f n i c) -> nth_error h' a = nth_error h0 a).
  { induction c as [|c IHc]; intros i h0 Hi W0; [exists h0; cbn; auto|]. pose proof W0 as W1. destruct W0 as (Wn & Ne & Sl). rewrite clear_loop_S, has_arc_ok, is_leaf_ok by (auto; lia). destruct (tb (emap n) i) eqn:T.
    2:{ destruct (IHc (S i) h0 ltac:(lia) W1) as (h' & X & L & K & N). rewrite cnt_S, T, Nat.add_0_r in X. exists h'. split; auto. split; auto. split; auto. intros a Ha. apply N. rewrite lv_S in Ha. intros C. apply Ha. apply in_app_iff. now right. }
    assert (Hi32 : (i < 32)%nat) by lia. specialize (Sl i Hi32 T).
    assert (St : exists e h1, slot n i = Some e /\ (if tb (lmap n) i then do a <- as_leaf e; do l <- aget h0 a; aset h0 a (clearer l) else do m <- as_node e; clear_rec f h0 m clearer) = Ok h1 /\ length h1 = length h0 /\ (forall a, kat h1 a = kat h0 a) /\
       forall a, ~ In a (sub f (slot n i)) -> nth_error h1 a = nth_error h0 a).
    { destruct (tb (lmap n) i).
      - destruct Sl as (a & k & E & K & _). destruct (kat_aget _ _ _ K) as (l & Ga & Nl & Kl). exists (ELeaf a). cbn [as_leaf bind]. rewrite Ga. cbn [bind].
        destruct (aset_ok _ h0 a (clearer l)) as (h1 & X & L & N). { apply nth_error_Some. congruence. } exists h1. split; auto. split; auto. split; auto. split.
        + intros b. unfold kat. rewrite N. destruct (Nat.eqb_spec b a) as [->|]; auto. rewrite Nl. cbn. now rewrite Hc.
        + intros b Hb. rewrite N. destruct (Nat.eqb_spec b a) as [->|]; auto. exfalso. apply Hb. rewrite E. now left.
      - destruct Sl as (m & E & Wm & _). exists (ENode m). cbn [as_node bind]. destruct (IH _ _ _ _ Wm) as (h1 & X & L & K & N). exists h1. rewrite E. cbn [sub]. auto 10. }
    destruct St as (e & h1 & E & X & L1 & K1 & N1). rewrite (entry_at n i e E). cbn [bind]. rewrite X. cbn [bind].
    destruct (IHc (S i) h1 ltac:(lia)) as (h' & X' & L & K & N). { eapply wf_mono; [|exact W1]. intros; auto. }
    rewrite cnt_S, T in X'. rewrite Nat.add_1_r in X'. exists h'. split; auto. split; [lia|]. split; [intros; now rewrite K|].
    intros a Ha. rewrite lv_S, in_app_iff in Ha. rewrite N, N1; auto. }
  destruct (G 32%nat 0%nat h eq_refl W) as (h' & X & R). exists h'. split; auto.
Qed.

(** ** copying *)
Definition copy_loop (rec : heap P -> node -> res (heap P * node)) (s : node) (size : nat) (copy : leaf P -> leaf P) : nat -> nat -> nat -> heap P -> list entry -> res (heap P * list entry) :=
  fix loop (c i off : nat) (h : heap P) (dst : list entry) : res (heap P * list entry) :=
       match c with
       | O => Ok (h, dst)
       | S c' =>
         if (off <? size)%nat then
           if negb (node_has_arc s i) then loop c' (S i) off h dst
           else
             do e <- node_entry s off;
             do x <- (if node_arc_is_leaf s i then
                        do a <- as_leaf e; do l <- aget h a; Ok (h ++ [copy l], ELeaf (length h))
                      else do m <- as_node e; do y <- rec h m; Ok (fst y, ENode (snd y)));
             do dst1 <- aset dst off (snd x);
             loop c' (S i) (S off) (fst x) dst1
         else Ok (h, dst)
       end.
Lemma copy_loop_S : forall rec s size copy c i off h dst, copy_loop rec s size copy (S c) i off h dst =
  if (off <? size)%nat then
           if negb (node_has_arc s i) then copy_loop rec s size copy c (S i) off h dst
           else
             do e <- node_entry s off;
             do x <- (if node_arc_is_leaf s i then
                        do a <- as_leaf e; do l <- aget h a; Ok (h ++ [copy l], ELeaf (length h))
                      else do m <- as_node e; do y <- rec h m; Ok (fst y, ENode (snd y)));
             do dst1 <- aset dst off (snd x);
             copy_loop rec s size copy c (S i) (S off) (fst x) dst1
         else Ok (h, dst).
Proof. reflexivity. Qed.
Lemma copy_rec_S : forall f h s copy, copy_rec (S f) h s copy =
  do r <- copy_loop (fun h m => copy_rec f h m copy) s (node_nchildren s) copy MAX_NODE_SIZE 0 0 h (ents (make_node (node_nchildren s))); Ok (fst r, Node (emap s) (lmap s) (snd r)).
Proof. intros. cbn [copy_rec]. unfold copy_loop. reflexivity. Qed.
Definition copies (copy : leaf P -> leaf P) h (L : list nat) (h2 : list (leaf P)) : Prop := Forall2 (fun a l2 => exists l, nth_error h a = Some l /\ l2 = copy l) L h2.
Lemma copies_ext : forall copy h hx L h2, copies copy h L h2 -> copies copy (h ++ hx) L h2.
Proof. intros copy h hx L h2 F. induction F as [|a l2 L h2 (l & N & ->) F IH]; constructor; auto. exists l. split; auto. rewrite nth_error_app1; auto. apply nth_error_Some. congruence. Qed.
Lemma Forall2_len : forall A B (R : A -> B -> Prop) x y, Forall2 R x y -> length x = length y. Proof. induction 1; cbn; auto. Qed.
Lemma copies_back : forall copy h hx L h2, (forall a, In a L -> (a < length h)%nat) -> copies copy (h ++ hx) L h2 -> copies copy h L h2.
Proof.
  intros copy h hx L h2 B F. induction F as [|a l2 L h2 (l & N & ->) F IH]; constructor.
  - exists l. split; auto. rewrite nth_error_app1 in N; auto. apply B. now left.
  - apply IH. intros; apply B; now right.
Qed.
Lemma wf_app : forall f level p h h2 n, wf f level p h n -> wf f level p (h ++ h2) n.
Proof. intros f level p h h2 n W. eapply wf_mono; [|exact W]. intros a Ha. destruct (leaves_keys _ _ _ _ _ _ W Ha) as (k & K & _). rewrite K. now apply kat_app. Qed.
Lemma leaves_bound : forall f level p h n a, wf f level p h n -> In a (leaves f n) -> (a < length h)%nat.
Proof. intros f level p h n a W Ha. destruct (leaves_keys _ _ _ _ _ _ W Ha) as (k & K & _). destruct (kat_aget _ _ _ K) as (l & _ & N & _). apply nth_error_Some. congruence. Qed.

Lemma copy_rec_ok : forall copy, (forall l : leaf P, leaf_key (copy l) = leaf_key l) -> forall f level p h n, wf f level p h n ->
  exists h2 n2, copy_rec f h n copy = Ok (h ++ h2, n2) /\ emap n2 = emap n /\ lmap n2 = lmap n /\ wf f level p (h ++ h2) n2 /\
    leaves f n2 = seq (length h) (length (leaves f n)) /\ copies copy h (leaves f n) h2.
Proof.
  intros copy Hc. induction f as [|f IH]; intros level p h n W; [destruct W|]. pose proof W as W0. destruct W as (Wn & Ne & Sl).
  rewrite copy_rec_S. rewrite nchildren_ok by apply Wn. set (size := cnt (emap n) 32).
  assert (G : forall c i hx dst, (i + c = 32)%nat -> (size <= length dst)%nat ->
    exists hy dst', copy_loop (fun h m => copy_rec f h m copy) n size copy c i (cnt (emap n) i) (h ++ hx) dst = Ok (h ++ hx ++ hy, dst') /\ length dst' = length dst /\
      (forall k, (k < cnt (emap n) i)%nat -> nth_error dst' k = nth_error dst k) /\
      (forall j, (i <= j < 32)%nat -> tb (emap n) j = true ->
         if tb (lmap n) j then exists a k, nth_error dst' (cnt (emap n) j) = Some (ELeaf a) /\ kat (h ++ hx ++ hy) a = Some k /\ agree level k p /\ key2index k level = j
         else exists m, nth_error dst' (cnt (emap n) j) = Some (ENode m) /\ wf f (S level) (ext p level j) (h ++ hx ++ hy) m /\ ok1 m) /\
      flat_map (fun j => sub f (if tb (emap n) j then nth_error dst' (cnt (emap n) j) else None)) (seq i c) = seq (length h + length hx) (length (lv f n i c)) /\
      copies copy h (lv f n i c) hy).
  { induction c as [|c IHc]; intros i hx dst Hi Ld.
    { exists [], dst. cbn [copy_loop]. rewrite app_nil_r. split; auto. split; auto. split; auto. split; [intros; lia|]. split; [reflexivity|]. constructor. }
    rewrite copy_loop_S. destruct (Nat.ltb_spec (cnt (emap n) i) size) as [Lt|Ge].
    2:{ (* no arc left *)
        assert (Z : forall j, (i <= j < 32)%nat -> tb (emap n) j = false).
        { intros j Hj. destruct (tb (emap n) j) eqn:T; auto. pose proof (cnt_mono (emap n) i j ltac:(lia)). pose proof (cnt_lt (emap n) j 32 ltac:(lia) T). unfold size in Ge. lia. }
        exists [], dst. rewrite app_nil_r. split; auto. split; auto. split; auto. split; [intros j Hj T; rewrite Z in T by auto; discriminate|].
        rewrite (lv_nil f n (S c) i) by (intros; apply Z; lia). split; [|constructor]. rewrite (flat_map_ext_in _ _ _ (fun _ => [])). { clear. induction (seq i (S c)); auto. } intros j Hj. apply in_seq in Hj. rewrite Z by lia. reflexivity. }
    rewrite has_arc_ok, is_leaf_ok by (auto; lia). rewrite lv_S. destruct (tb (emap n) i) eqn:T; cbn [negb].
    2:{ destruct (IHc (S i) hx dst ltac:(lia) Ld) as (hy & dst' & X & L & Pre & Ent & Lv & Cp). rewrite cnt_S, T, Nat.add_0_r in X, Pre. exists hy, dst'. split; auto. split; auto. split; auto. split.
        - intros j Hj Tj. apply Ent; auto. assert (i <> j) by congruence. lia.
        - cbn [seq flat_map]. unfold slot at 1 2. rewrite T. cbn [sub app]. auto. }
    assert (Hi32 : (i < 32)%nat) by lia. pose proof (Sl i Hi32 T) as Si.
    (* the entry *)
    assert (St : exists e h1 e1, slot n i = Some e /\
       (if tb (lmap n) i then do a <- as_leaf e; do l <- aget (h ++ hx) a; Ok ((h ++ hx) ++ [copy l], ELeaf (length (h ++ hx))) else do m <- as_node e; do y <- copy_rec f (h ++ hx) m copy; Ok (fst y, ENode (snd y))) = Ok (h ++ hx ++ h1, e1) /\
       (if tb (lmap n) i then exists a k, e1 = ELeaf a /\ kat (h ++ hx ++ h1) a = Some k /\ agree level k p /\ key2index k level = i else exists m, e1 = ENode m /\ wf f (S level) (ext p level i) (h ++ hx ++ h1) m /\ ok1 m) /\
       sub f (Some e1) = seq (length h + length hx) (length (sub f (slot n i))) /\ copies copy h (sub f (slot n i)) h1).
    { destruct (tb (lmap n) i).
      - destruct Si as (a & k & E & K & Ag & X). destruct (kat_aget _ _ _ (kat_app h hx a k K)) as (l & Ga & Nl & Kl). exists (ELeaf a), [copy l], (ELeaf (length (h ++ hx))). split; auto. cbn [as_leaf bind]. rewrite Ga. cbn [bind]. rewrite <- app_assoc. split; auto.
        split. { exists (length (h ++ hx)), k. split; auto. split; auto. unfold kat. rewrite app_assoc, nth_error_app2, Nat.sub_diag by lia. cbn. now rewrite Hc, Kl. }
        rewrite E. cbn [sub length seq]. rewrite app_length. split; auto. constructor; [|constructor]. exists l. split; auto. destruct (kat_aget _ _ _ K) as (l' & _ & Nl' & _). rewrite nth_error_app1 in Nl; auto. apply nth_error_Some. congruence.
      - destruct Si as (m & E & Wm & Om). destruct (IH (S level) (ext p level i) (h ++ hx) m (wf_app _ _ _ _ _ _ Wm)) as (h1 & m1 & X & E1 & L1 & W1 & Lv1 & C1). rewrite <- app_assoc in *. exists (ENode m), h1, (ENode m1). split; auto. cbn [as_node bind]. rewrite X. cbn [bind fst snd]. split; auto.
        split. { exists m1. split; auto. split; auto. unfold ok1. rewrite E1, L1. exact Om. }
        rewrite E. cbn [sub]. rewrite Lv1, app_length. split; auto. apply (copies_back copy h hx); auto. intros a Ha. eapply leaves_bound; eauto. }
    destruct St as (e & h1 & e1 & E & X & Wf1 & Lv1 & C1). rewrite (entry_at n i e E). cbn [bind]. rewrite X. cbn [bind fst snd].
    destruct (aset_ok _ dst (cnt (emap n) i) e1 ltac:(lia)) as (dst1 & -> & L1 & N1). cbn [bind].
    destruct (IHc (S i) (hx ++ h1) dst1 ltac:(lia) ltac:(lia)) as (hy & dst' & X' & L' & Pre & Ent & Lv & Cp). rewrite cnt_S, T, Nat.add_1_r in X', Pre. rewrite <- !app_assoc in X', Ent.
    assert (Ei : nth_error dst' (cnt (emap n) i) = Some e1) by (rewrite Pre by lia; rewrite N1, Nat.eqb_refl; auto).
    exists (h1 ++ hy), dst'. split; auto. split; [lia|]. split.
    { intros k Hk. rewrite Pre by lia. rewrite N1. destruct (Nat.eqb_spec k (cnt (emap n) i)); [lia|auto]. }
    split.
    { intros j Hj Tj. destruct (Nat.eqb_spec j i) as [->|Nj]; [|apply Ent; auto; lia]. rewrite Ei. destruct (tb (lmap n) i).
      - destruct Wf1 as (a & k & -> & K & R). exists a, k. split; auto. split; auto. replace (h ++ hx ++ h1 ++ hy) with ((h ++ hx ++ h1) ++ hy) by now rewrite <- !app_assoc. now apply kat_app.
      - destruct Wf1 as (m & -> & Wm & Om). exists m. split; auto. split; auto. replace (h ++ hx ++ h1 ++ hy) with ((h ++ hx ++ h1) ++ hy) by now rewrite <- !app_assoc. now apply wf_app. }
    split.
    { cbn [seq flat_map]. rewrite T, Ei, Lv1, Lv. rewrite !app_length, seq_app. f_equal. f_equal. rewrite <- (Forall2_len _ _ _ _ _ C1). lia. }
    apply Forall2_app; auto. }
  pose proof (make_node_cap size) as Cap. destruct (G 32%nat 0%nat [] (ents (make_node size)) eq_refl ltac:(lia)) as (hy & dst' & X & L & _ & Ent & Lv & Cp). rewrite app_nil_r in X. cbn [app] in X. change (cnt (emap n) 0) with 0%nat in X. change MAX_NODE_SIZE with 32%nat. rewrite X. cbn [bind fst snd].
  exists hy, (Node (emap n) (lmap n) dst'). split; auto. split; auto. split; auto. cbn [length app] in *. rewrite Nat.add_0_r in Lv. split; [|split; auto].
  split; [constructor; cbn [emap lmap ents]; try apply Wn; rewrite L, Cap; unfold size; lia|]. split; auto. cbn [emap lmap]. intros i Hi T. specialize (Ent i ltac:(lia) T). unfold slot. cbn [emap ents]. rewrite T. exact Ent.
Qed.

(** ** checking *)
Definition check_loop (rec : node -> res Z) (n : node) (level : nat) : nat -> nat -> nat -> nat -> Z -> res Z :=
  fix loop (c i off : nat) (direct : nat) (total : Z) : res Z :=
       match c with
       | O =>
         if (off =? 0)%nat then Err
         else if (off =? 1)%nat && (direct =? 1)%nat && (0 <? level)%nat then Err
         else Ok total
       | S c' =>
         if node_has_arc n i then
           if node_arc_is_leaf n i then loop c' (S i) (S off) (S direct) ((total + 1) mod 2 ^ 32)
           else do e <- node_entry n off; do m <- as_node e; do t <- rec m;
                loop c' (S i) (S off) direct ((total + t) mod 2 ^ 32)
         else loop c' (S i) off direct total
       end.
Lemma check_loop_S : forall rec n level c i off direct total, check_loop rec n level (S c) i off direct total =
  if node_has_arc n i then
           if node_arc_is_leaf n i then check_loop rec n level c (S i) (S off) (S direct) ((total + 1) mod 2 ^ 32)
           else do e <- node_entry n off; do m <- as_node e; do t <- rec m;
                check_loop rec n level c (S i) (S off) direct ((total + t) mod 2 ^ 32)
         else check_loop rec n level c (S i) off direct total.
Proof. reflexivity. Qed.
Lemma check_rec_S : forall f n level, check_rec (S f) n level = check_loop (fun m => check_rec f m (S level)) n level MAX_NODE_SIZE 0 0 0 0.
Proof. intros. cbn [check_rec]. unfold check_loop. reflexivity. Qed.
Lemma check_rec_ok : forall f level p h n, wf f level p h n -> ((0 < level)%nat -> ok1 n) -> check_rec f n level = Ok (Z.of_nat (length (leaves f n)) mod 2 ^ 32).
Proof.
  induction f as [|f IH]; intros level p h n W O1; [destruct W|]. pose proof W as W0. destruct W as (Wn & Ne & Sl). rewrite lv_all.
  rewrite check_rec_S.
  assert (Nz : (0 < cnt (emap n) 32)%nat) by (destruct (w32_nonzero _ (wn_e n Wn) Ne) as (j & Hj & Tj); pose proof (cnt_lt _ _ _ Hj Tj); lia).
  assert (G : forall c i total, (i + c = 32)%nat -> check_loop (fun m => check_rec f m (S level)) n level c i (cnt (emap n) i) (cnt (lmap n) i) (total mod 2 ^ 32) = Ok ((total + Z.of_nat (length (lv f n i c))) mod 2 ^ 32)).
  { induction c as [|c IHc]; intros i total Hi.
    - assert (i = 32%nat) by lia. subst i. cbn [check_loop]. destruct (Nat.eqb_spec (cnt (emap n) 32) 0); [lia|]. destruct ((cnt (emap n) 32 =? 1)%nat && (cnt (lmap n) 32 =? 1)%nat && (0 <? level)%nat) eqn:B.
      + exfalso. apply andb_true_iff in B. destruct B as (B & B3). apply andb_true_iff in B. destruct B as (B1 & B2). apply Nat.eqb_eq in B1, B2. apply Nat.ltb_lt in B3. rewrite (O1 B3 B1) in B2. assert (cnt 0 32 = 0%nat) by (apply count_zero; intros; apply tb_0). lia.
      + unfold lv. cbn [seq flat_map length]. change (Z.of_nat 0) with 0. now rewrite Z.add_0_r.
    - rewrite check_loop_S, has_arc_ok, is_leaf_ok by (auto; lia). rewrite lv_S. destruct (tb (emap n) i) eqn:T.
      + assert (Hi32 : (i < 32)%nat) by lia. specialize (Sl i Hi32 T). destruct (tb (lmap n) i) eqn:Tl.
        * destruct Sl as (a & k & -> & _). cbn [sub app length]. pose proof (IHc (S i) (total + 1) ltac:(lia)) as X. rewrite !cnt_S, T, Tl in X. rewrite !Nat.add_1_r in X. rewrite Z.add_mod_idemp_l by lia. rewrite X. f_equal. f_equal. lia.
        * destruct Sl as (m & E & Wm & Om). rewrite (entry_at n i _ E). cbn [bind as_node]. rewrite (IH _ _ _ _ Wm) by auto. cbn [bind]. rewrite E. cbn [sub]. rewrite app_length.
          pose proof (IHc (S i) (total + Z.of_nat (length (leaves f m))) ltac:(lia)) as X. rewrite !cnt_S, T, Tl in X. rewrite Nat.add_1_r, Nat.add_0_r in X. rewrite <- Z.add_mod by lia. rewrite X. f_equal. f_equal. lia.
      + assert (Tl : tb (lmap n) i = false). { destruct (tb (lmap n) i) eqn:Q; auto. apply (wn_sub n Wn) in Q. congruence. }
        unfold slot. rewrite T. cbn [sub app]. pose proof (IHc (S i) total ltac:(lia)) as X. rewrite !cnt_S, T, Tl, !Nat.add_0_r in X. exact X. }
  exact (G 32%nat 0%nat 0 eq_refl).
Qed.
End Trie3.
