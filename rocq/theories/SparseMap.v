(** A trie of leaves with entries, as a finite map: what the sparse tables and the
    sparse vectors share. *)
From Coq Require Import ZArith List Bool Arith Lia Permutation.
From Verif Require Import Outcome BitsModel BitsSpec BitsProofs BitsProofs3 SparseModel SparseNode SparseTrie SparseTrie2 SparseTrie3 HashSpec HashProofs2 SparseSpec.
Import ListNotations.
Local Open Scope Z_scope.
Ltac Zify.zify_post_hook ::= idtac.

(** ** the trie *)
Section Tok.
Context {P : Type}.
Implicit Types (h : heap P).
Definition tok h (ct : ctrie) (L : list nat) : Prop :=
  ct_num ct = Z.of_nat (length L) mod 2 ^ 32 /\ match ct_root ct with None => L = [] | Some r => wf 13 0 0 h r /\ L = leaves 13 r end.

Lemma tok_init : forall h, tok h ctrie_init []. Proof. intros. split; reflexivity. Qed.
Lemma tok_keys : forall h ct L a, tok h ct L -> In a L -> exists k, kat h a = Some k.
Proof. intros h ct L a (_ & T) Ha. destruct (ct_root ct) as [r|]; [|subst; destruct Ha]. destruct T as (W & ->). destruct (leaves_keys _ _ _ _ _ _ W Ha) as (k & K & _). eauto. Qed.
Lemma tok_leaf : forall h ct L a, tok h ct L -> In a L -> exists l, nth_error h a = Some l /\ (a < length h)%nat.
Proof. intros h ct L a T Ha. destruct (tok_keys _ _ _ _ T Ha) as (k & K). destruct (kat_aget _ _ _ K) as (l & _ & N & _). exists l. split; auto. apply nth_error_Some. congruence. Qed.
Lemma tok_mono : forall h h' ct L, tok h ct L -> (forall a, In a L -> kat h' a = kat h a) -> tok h' ct L.
Proof. intros h h' ct L (N & T) H. split; auto. destruct (ct_root ct) as [r|]; auto. destruct T as (W & ->). split; auto. eapply wf_mono; eauto. Qed.
Lemma tok_nodup : forall h ct L, tok h ct L -> NoDup L.
Proof. intros h ct L (N & T). destruct (ct_root ct) as [r|]; [|subst; constructor]. destruct T as (W & ->). eapply leaves_nodup; eauto. Qed.
Lemma tok_inj : forall h ct L a b k, tok h ct L -> In a L -> In b L -> kat h a = Some k -> kat h b = Some k -> a = b.
Proof. intros h ct L a b k (N & T) Ha Hb Ka Kb. destruct (ct_root ct) as [r|]; [|subst; destruct Ha]. destruct T as (W & ->). eapply (leaves_key_inj 13 0); eauto. Qed.
Lemma tok_get : forall h ct L key, tok h ct L -> exists r, ctrie_get h ct key = Ok r /\
    match r with Some a => In a L /\ kat h a = Some key | None => ~ present h L key end.
Proof.
  intros h ct L key (N & T). unfold ctrie_get. destruct (ct_root ct) as [r|].
  - destruct T as (W & ->). destruct (get_rec_ok 13 0 0 h r key W (agree_0 _ _)) as (o & E & X). exists o. split; auto. destruct o; auto. intros (a & Ha & K). apply (X a); auto.
  - exists None. split; auto. subst. intros (a & [] & _).
Qed.
Lemma tok_add : forall h ct L key c, tok h ct L -> u64 key -> exists h1 ct1 a L1, ctrie_add h ct key c = Ok (h1, ct1, a) /\ tok h1 ct1 L1 /\
    ((In a L /\ kat h a = Some key /\ h1 = h /\ L1 = L) \/
     (~ present h L key /\ a = length h /\ h1 = added h c key /\ Permutation L1 (a :: L))).
Proof.
  intros h ct L key c (N & T) U. unfold ctrie_add. destruct (ct_root ct) as [r|].
  - destruct T as (W & ->). destruct (add_rec_ok 13 0 0 h (ct_num ct) r key c eq_refl W (agree_0 _ _) U) as (h1 & num1 & n1 & a & E & W1 & D). unfold LEVELS. rewrite E. cbn [bind].
    exists h1, (mkTrie num1 (Some n1)), a, (leaves 13 n1). split; auto. destruct D as [(Ha & K & -> & -> & Lv & _)|(Np & -> & -> & -> & Pm & _)].
    + split; [|left; auto]. split; [|cbn [ct_root]; auto]. cbn [ct_num]. now rewrite Lv.
    + split; [|right; auto]. split; [|cbn [ct_root]; auto]. cbn [ct_num]. rewrite (Permutation_length Pm), N. cbn [length]. rewrite Z.add_mod_idemp_l by lia. f_equal. lia.
  - subst L. unfold new_leaf. set (i := Z.to_nat (Z.land key TRIE_MASK)). assert (Ei : i = key2index key 0) by apply key2index_0. assert (Hi : (i < 32)%nat) by (rewrite Ei; apply key2index_lt).
    fold (single i). destruct (single_ok i (length h) Hi) as (n & E & Em & Lm & Wn & Sl). rewrite E. cbn [bind]. exists (added h c key), (mkTrie 1 (Some n)), (length h), [length h]. split; auto.
    assert (Lv : leaves 13 n = [length h]). { rewrite (leaves_single 12 n i Hi). { now rewrite Sl, Nat.eqb_refl. } intros j Hj Nj. rewrite Sl. destruct (Nat.eqb_spec j i); [contradiction|auto]. }
    split; [|right; split; [intros (a & [] & _)|auto]]. split; [reflexivity|]. cbn [ct_root]. split; auto. split; auto. split. { rewrite Em. apply set_nonzero with (i := i). now rewrite tb_set, Nat.eqb_refl. }
    intros j Hj T. rewrite Em, tb_set, tb_0, orb_false_r in T. apply Nat.eqb_eq in T. subst j. rewrite Lm, tb_set, Nat.eqb_refl. cbn [orb]. exists (length h), key. rewrite Sl, Nat.eqb_refl. split; auto. split; [now apply added_new|]. split; [apply agree_0|auto].
Qed.
Lemma tok_delete : forall h ct L key, tok h ct L -> exists ct1 del L1, ctrie_delete h ct key = Ok (ct1, del) /\ tok h ct1 L1 /\
    match del with None => ~ present h L key /\ L1 = L | Some a => In a L /\ kat h a = Some key /\ Permutation L (a :: L1) end.
Proof.
  intros h ct L key (N & T). unfold ctrie_delete. destruct (ct_root ct) as [r|] eqn:R.
  - destruct T as (W & ->). destruct (del_rec_ok 13 0 0 h (ct_num ct) r key eq_refl W) as (m & num1 & del & E & X); [lia|apply agree_0|]. unfold LEVELS. rewrite E. cbn [bind]. destruct del as [a|].
    + destruct X as (Ha & K & -> & X). assert (Nm : forall L1, Permutation (leaves 13 r) (a :: L1) -> (ct_num ct - 1) mod 2 ^ 32 = Z.of_nat (length L1) mod 2 ^ 32).
      { intros L1 Pm. rewrite N, (Permutation_length Pm). cbn [length]. rewrite Zminus_mod_idemp_l. f_equal. lia. }
      destruct m as [|b|n1].
      * destruct X as (_ & X). exists (mkTrie ((ct_num ct - 1) mod 2 ^ 32) None), (Some a), []. split; auto. split; [|split; [auto|split; [auto|rewrite X; auto]]]. split; [|reflexivity]. cbn [ct_num]. apply Nm. rewrite X. auto.
      * destruct X as (X & _). lia.
      * destruct X as (W1 & Pm & _). exists (mkTrie ((ct_num ct - 1) mod 2 ^ 32) (Some n1)), (Some a), (leaves 13 n1). split; auto. split; [|auto]. split; [|cbn [ct_root]; auto]. cbn [ct_num]. now apply Nm.
    + destruct X as (Np & -> & n1 & -> & W1 & Lv & _). exists (mkTrie (ct_num ct) (Some n1)), None, (leaves 13 n1). split; auto. split; [|auto]. split; cbn [ct_num ct_root]; auto. now rewrite Lv.
  - exists ct, None, L. split; auto. split; [split; auto; now rewrite R|]. split; auto. subst. intros (a & [] & _).
Qed.
Lemma tok_clear : forall clearer, (forall l : leaf P, leaf_key (clearer l) = leaf_key l) -> forall h ct L, tok h ct L -> exists h' ct', ctrie_clear h ct clearer = Ok (h', ct') /\ tok h' ct' [] /\
   length h' = length h /\ forall a, ~ In a L -> nth_error h' a = nth_error h a.
Proof.
  intros clearer Hc h ct L (N & T). unfold ctrie_clear. destruct (ct_root ct) as [r|].
  - destruct T as (W & ->). destruct (clear_rec_ok clearer Hc 13 0 0 h r W) as (h' & E & Ln & _ & X). unfold LEVELS. rewrite E. cbn [bind]. exists h', (mkTrie 0 None). split; auto. split; [split; reflexivity|]. auto.
  - exists h, (mkTrie 0 None). split; auto. split; [split; reflexivity|]. auto.
Qed.
Lemma tok_copy : forall copy, (forall l : leaf P, leaf_key (copy l) = leaf_key l) -> forall h ct L, tok h ct L -> exists h2 ct', ctrie_copy h ct copy = Ok (h ++ h2, ct') /\ tok (h ++ h2) ct' (seq (length h) (length L)) /\ copies copy h L h2.
Proof.
  intros copy Hc h ct L (N & T). unfold ctrie_copy. destruct (ct_root ct) as [r|].
  - destruct T as (W & ->). destruct (copy_rec_ok copy Hc 13 0 0 h r W) as (h2 & n2 & E & _ & _ & W2 & Lv & C). unfold LEVELS. rewrite E. cbn [bind fst snd]. exists h2, (mkTrie (ct_num ct) (Some n2)). split; auto. split; [|auto]. split; cbn [ct_num ct_root]; [now rewrite seq_length|auto].
  - subst L. exists [], (mkTrie (ct_num ct) None). rewrite app_nil_r. split; auto. split; [split; [exact N|reflexivity]|constructor].
Qed.
Lemma tok_check : forall h ct L, tok h ct L -> ctrie_check ct = Ok tt.
Proof.
  intros h ct L (N & T). unfold ctrie_check. destruct (ct_root ct) as [r|].
  - destruct T as (W & ->). unfold LEVELS. rewrite (check_rec_ok 13 0 0 h r W) by lia. cbn [bind]. now rewrite N, Z.eqb_refl.
  - subst L. rewrite N. reflexivity.
Qed.
(** the iterator [it] still has the leaves [B] to deliver *)
Definition itpos h (L : list nat) (it : ctiter) (B : list nat) : Prop :=
  it_end it = false /\ ((it_begin it = true /\ B = L) \/ (it_begin it = false /\ exists A a, L = A ++ a :: B /\ kat h a = Some (it_key it))).
Lemma itpos_init : forall h L, itpos h L ctiter_init L. Proof. intros. split; auto. Qed.
Lemma tok_next : forall h ct L it B, tok h ct L -> itpos h L it B -> exists it', ctiter_next h ct it = Ok (it', hd_error B) /\
   match B with [] => it_end it' = true | a :: B' => itpos h L it' B' end.
Proof.
  intros h ct L it B T (E & Pos). unfold ctiter_next. rewrite E. pose proof T as (N & T').
  assert (X : (if it_begin it then ctrie_first_leaf ct else ctrie_next_leaf ct (it_key it)) = Ok (hd_error B)).
  { unfold ctrie_first_leaf, ctrie_next_leaf, LEVELS. destruct Pos as [(-> & ->)|(-> & A & a & -> & K)]; destruct (ct_root ct) as [r|].
    - destruct T' as (W & ->). eapply first_rec_ok; eauto.
    - subst L. reflexivity.
    - destruct T' as (W & Lv). eapply (next_rec_ok 13 0 0 h r); eauto. apply agree_0.
    - symmetry in T'. now apply app_cons_not_nil in T'. }
  rewrite X. cbn [bind]. destruct B as [|a B]; cbn [hd_error]; [eexists; split; [reflexivity|]; reflexivity|].
  assert (Ha : In a L). { destruct Pos as [(_ & <-)|(_ & A & b & -> & _)]; [now left|]. rewrite in_app_iff. right. right. now left. }
  destruct (tok_keys _ _ _ _ T Ha) as (k & K). destruct (kat_aget _ _ _ K) as (l & -> & _ & Kl). cbn [bind]. eexists. split; [reflexivity|]. split; auto. right. split; auto. cbn [it_key]. rewrite Kl.
  destruct Pos as [(_ & <-)|(_ & A & b & -> & _)]; [exists [], a; auto|]. exists (A ++ [b]), a. rewrite <- app_assoc. auto.
Qed.
End Tok.

(** ** finite maps *)
Section FM.
Context {K V : Type} (eqf : K -> K -> bool).
Definition miss (k : K) (m : fmap K V) : Prop := forall e, In e m -> eqf k (fst e) = false.
Lemma flookup_app : forall k (m r : fmap K V), miss k r -> flookup eqf k (m ++ r) = flookup eqf k m.
Proof.
  intros k m r M. unfold flookup. induction m as [|e m IH]; cbn [app find].
  - induction r as [|e r IH]; auto. cbn [find]. rewrite (M e) by now left. apply IH. intros x Hx. apply M. now right.
  - destruct (eqf k (fst e)); auto.
Qed.
Lemma flookup_miss : forall k (r : fmap K V), miss k r -> flookup eqf k r = None.
Proof. intros k r M. rewrite <- (app_nil_l r). now rewrite flookup_app. Qed.
Lemma flookup_none_miss : forall k (r : fmap K V), flookup eqf k r = None -> miss k r.
Proof.
  intros k r H e He. unfold flookup in H. destruct (find (fun e => eqf k (fst e)) r) eqn:F; [discriminate|]. eapply find_none in F; eauto.
Qed.
Lemma fput_app : forall k v (m r : fmap K V), miss k r -> fput eqf k v (m ++ r) = fput eqf k v m ++ r.
Proof.
  intros k v m r M. unfold fput. rewrite flookup_app by auto. destruct (flookup eqf k m); auto. rewrite map_app. f_equal.
  rewrite <- (map_id r) at 2. apply map_ext_in. intros e He. now rewrite (M e He).
Qed.
Lemma fremove_miss : forall k (r : fmap K V), miss k r -> fremove eqf k r = r.
Proof. intros k r M. unfold fremove. induction r as [|e r IH]; auto. cbn [filter]. rewrite (M e) by now left. cbn. f_equal. apply IH. intros x Hx. apply M. now right. Qed.
Lemma fremove_app : forall k (m r : fmap K V), miss k r -> fremove eqf k (m ++ r) = fremove eqf k m ++ r.
Proof. intros k m r M. rewrite <- (fremove_miss k r M) at 2. unfold fremove. now rewrite filter_app. Qed.
Lemma distinct_app : forall (m r : fmap K V), distinct eqf m -> distinct eqf r -> (forall e, In e m -> miss (fst e) r) -> distinct eqf (m ++ r).
Proof.
  induction m as [|e m IH]; intros r Dm Dr X; auto. destruct Dm as (F & Dm). cbn [app distinct]. split.
  - apply Forall_app. split; auto. apply Forall_forall. intros x Hx. apply (X e); auto. now left.
  - apply IH; auto. intros e' He'. apply X. now right.
Qed.
End FM.

(** ** containers *)
Section SparseMap.
Context {P K V : Type} (hashfn : K -> Z) (eqf : K -> K -> bool) (KO : key_ok hashfn eqf) (lents : leaf P -> list (K * V)) (lok : leaf P -> Prop).
Hypothesis lok_hash : forall l, lok l -> forall e, In e (lents l) -> hashfn (fst e) = leaf_key l.
Hypothesis lok_dist : forall l, lok l -> distinct eqf (lents l).
Implicit Types (h : heap P).
Notation miss := (miss eqf (V:=V)).

Definition le h (a : nat) : list (K * V) := match nth_error h a with Some l => lents l | None => [] end.
Record cok h (ct : ctrie) (L : list nat) (m : fmap K V) : Prop := {
  co_tok : tok h ct L;
  co_lok : forall a l, In a L -> nth_error h a = Some l -> lok l;
  co_perm : Permutation m (flat_map (le h) L) }.

Lemma cok_frame : forall h h' ct L m, cok h ct L m -> (forall a, In a L -> nth_error h' a = nth_error h a) -> cok h' ct L m.
Proof.
  intros h h' ct L m [T O Pm] F. constructor.
  - eapply tok_mono; eauto. intros a Ha. unfold kat. now rewrite F.
  - intros a l Ha N. rewrite F in N by auto. eauto.
  - rewrite (flat_map_ext_in _ _ _ (le h)); auto. intros a Ha. unfold le. now rewrite F.
Qed.
Lemma in_le : forall h ct L m a e, cok h ct L m -> In a L -> In e (le h a) -> kat h a = Some (hashfn (fst e)).
Proof.
  intros h ct L m a e C Ha He. destruct (tok_leaf _ _ _ _ (co_tok _ _ _ _ C) Ha) as (l & N & _). unfold le in He. rewrite N in He. unfold kat. rewrite N. cbn. f_equal. symmetry. apply lok_hash; auto. eapply co_lok; eauto.
Qed.
Lemma miss_flat : forall h ct L m k (L' : list nat), cok h ct L m -> (forall a, In a L' -> In a L) -> ~ present h L' (hashfn k) -> miss k (flat_map (le h) L').
Proof.
  intros h ct L m k L' C Sub Np e He. apply in_flat_map in He. destruct He as (a & Ha & He). destruct (eqf k (fst e)) eqn:Q; auto. exfalso. apply Np. exists a. split; auto.
  rewrite (ko_hash _ _ KO _ _ Q). eapply in_le; eauto.
Qed.
Lemma cok_distinct : forall h ct L m, cok h ct L m -> distinct eqf m.
Proof.
  intros h ct L m C. apply (distinct_perm hashfn eqf KO (flat_map (le h) L)); [symmetry; apply C|].
  pose proof (tok_nodup _ _ _ (co_tok _ _ _ _ C)) as ND. assert (G : forall L', (forall a, In a L' -> In a L) -> NoDup L' -> distinct eqf (flat_map (le h) L')).
  { induction L' as [|a L' IH]; intros Sub N'; [exact Logic.I|]. cbn [flat_map]. inversion_clear N'. apply distinct_app.
    - unfold le. destruct (nth_error h a) as [l|] eqn:E; [|exact Logic.I]. apply lok_dist. eapply co_lok; eauto. apply Sub. now left.
    - apply IH; auto. intros b Hb. apply Sub. now right.
    - intros e He. eapply miss_flat; [exact C|intros b Hb; apply Sub; now right|]. intros (b & Hb & Kb). apply H. replace a with b; auto.
      eapply (tok_inj h ct L); [apply C| | |exact Kb|]; [apply Sub; now right|apply Sub; now left|]. eapply in_le; eauto. apply Sub. now left. }
  apply G; auto.
Qed.
Lemma cok_absent : forall h ct L m k, cok h ct L m -> ~ present h L (hashfn k) -> flookup eqf k m = None.
Proof.
  intros h ct L m k C Np. rewrite (flookup_perm hashfn eqf KO k m (flat_map (le h) L)) by (apply C || eapply cok_distinct; eauto).
  apply flookup_miss. eapply miss_flat; eauto.
Qed.
Lemma flat_map_perm : forall (A B : Type) (f : A -> list B) x y, Permutation x y -> Permutation (flat_map f x) (flat_map f y).
Proof. intros A B f x y H. rewrite !flat_map_concat_map. induction H; cbn; auto. - now apply Permutation_app_head. - rewrite !app_assoc. apply Permutation_app_tail, Permutation_app_comm. - etransitivity; eauto. Qed.
(** the rest of the map when the leaf [a] is singled out *)
Lemma cok_split : forall h ct L m a l, cok h ct L m -> In a L -> nth_error h a = Some l ->
  exists rest, Permutation m (lents l ++ rest) /\ (forall k, hashfn k = leaf_key l -> miss k rest) /\
    (forall l' h', leaf_key l' = leaf_key l -> lok l' -> (forall b, nth_error h' b = if (b =? a)%nat then Some l' else nth_error h b) -> cok h' ct L (lents l' ++ rest)) /\
    (forall ct1 L1, tok h ct1 L1 -> Permutation L (a :: L1) -> cok h ct1 L1 rest).
Proof.
  intros h ct L m a l C Ha N. destruct (in_split _ _ Ha) as (A & B & ->). pose proof C as [T O Pm]. pose proof (tok_nodup _ _ _ T) as ND.
  exists (flat_map (le h) (A ++ B)). assert (Ni : ~ In a (A ++ B)) by now apply NoDup_remove_2.
  assert (Pl : Permutation (A ++ a :: B) (a :: A ++ B)) by (symmetry; apply Permutation_middle).
  split; [|split; [|split]].
  - rewrite Pm, (flat_map_perm _ _ _ _ _ Pl). cbn [flat_map]. unfold le at 1. now rewrite N.
  - intros k Hk. eapply miss_flat; eauto. { intros b Hb. apply in_app_iff in Hb. apply in_app_iff. destruct Hb; auto. right. now right. }
    intros (b & Hb & Kb). apply Ni. replace a with b; auto. eapply (tok_inj h ct); [exact T| |exact Ha|exact Kb|].
    + apply in_app_iff in Hb. apply in_app_iff. destruct Hb; auto. right. now right.
    + unfold kat. rewrite N. cbn. now rewrite Hk.
  - intros l' h' Kl Ol Hh. constructor.
    + eapply tok_mono; eauto. intros b Hb. unfold kat. rewrite Hh. destruct (Nat.eqb_spec b a) as [->|]; auto. rewrite N. cbn. now rewrite Kl.
    + intros b lb Hb Nb. rewrite Hh in Nb. destruct (Nat.eqb_spec b a) as [->|]; [now injection Nb as <-|eauto].
    + rewrite (flat_map_perm _ _ _ _ _ Pl). cbn [flat_map]. unfold le at 2. rewrite Hh, Nat.eqb_refl. apply Permutation_app_head. rewrite (flat_map_ext_in _ _ (le h') (le h)); auto.
      intros b Hb. unfold le. rewrite Hh. destruct (Nat.eqb_spec b a) as [->|]; [contradiction|auto].
  - intros ct1 L1 T1 Pm1. assert (Pab : Permutation (A ++ B) L1). { apply Permutation_cons_inv with (a := a). rewrite <- Pm1. symmetry. exact Pl. } constructor; auto.
    + intros b lb Hb Nb. apply (O b); auto. eapply Permutation_in; [symmetry; exact Pm1|]. now right.
    + now apply flat_map_perm.
Qed.
Lemma cok_present : forall h ct L m a l k, cok h ct L m -> In a L -> nth_error h a = Some l -> hashfn k = leaf_key l -> flookup eqf k m = flookup eqf k (lents l).
Proof.
  intros h ct L m a l k C Ha N Hk. destruct (cok_split _ _ _ _ _ _ C Ha N) as (rest & Pm & M & _). rewrite (flookup_perm hashfn eqf KO k m _ Pm) by (eapply cok_distinct; eauto). apply flookup_app. auto.
Qed.

(** CompactTrieGet on a container *)
Lemma cok_get : forall h ct L m k, cok h ct L m -> exists r, ctrie_get h ct (hashfn k) = Ok r /\
  match r with None => flookup eqf k m = None | Some a => In a L /\ exists l, nth_error h a = Some l /\ leaf_key l = hashfn k /\ lok l /\ flookup eqf k m = flookup eqf k (lents l) end.
Proof.
  intros h ct L m k C. destruct (tok_get h ct L (hashfn k) (co_tok _ _ _ _ C)) as (r & E & X). exists r. split; auto. destruct r as [a|].
  - destruct X as (Ha & Ka). split; auto. destruct (kat_aget _ _ _ Ka) as (l & _ & N & Kl). exists l. split; auto. split; auto. split; [eapply co_lok; eauto|]. eapply cok_present; eauto.
  - eapply cok_absent; eauto.
Qed.
(** CompactTrieAdd on a container: [x] is what the leaf already contained *)
Lemma cok_add : forall h ct L m key c, cok h ct L m -> u64 key -> exists h1 ct1 a L1 l x rest,
  ctrie_add h ct key c = Ok (h1, ct1, a) /\ nth_error h1 a = Some l /\ leaf_key l = key /\ In a L1 /\ (forall b, In b L1 -> In b L \/ b = length h) /\
  (forall b, (b < length h)%nat -> nth_error h1 b = nth_error h b) /\ (length h <= length h1)%nat /\ (a < length h -> In a L)%nat /\
  ((x = lents l /\ lok l) \/ (x = [] /\ l = leaf_key_set c key)) /\ Permutation m (x ++ rest) /\ (forall k, hashfn k = key -> miss k rest) /\
  (forall l', leaf_key l' = key -> lok l' -> exists h', aset h1 a l' = Ok h' /\ cok h' ct1 L1 (lents l' ++ rest) /\ length h' = length h1 /\ (forall b, b <> a -> nth_error h' b = nth_error h1 b)).
Proof.
  intros h ct L m key c C U. pose proof C as [T O Pm]. destruct (tok_add h ct L key c T U) as (h1 & ct1 & a & L1 & E & T1 & D). exists h1, ct1, a, L1. destruct D as [(Ha & Ka & -> & ->)|(Np & -> & -> & Pl)].
  - destruct (kat_aget _ _ _ Ka) as (l & _ & N & Kl). destruct (cok_split _ _ _ _ _ _ C Ha N) as (rest & Pr & M & Up & _). exists l, (lents l), rest. split; auto. split; auto. split; auto. split; auto. split; auto. split; auto. split; auto. split; auto. split; [left; split; eauto|]. split; auto. split; [intros k <-; auto|].
    intros l' Kl' Ol'. destruct (aset_ok _ h a l') as (h' & X & Ln & Hn). { apply nth_error_Some. congruence. } exists h'. split; auto. split; [|split; auto; intros b Hb; rewrite Hn; destruct (Nat.eqb_spec b a); [contradiction|auto]].
    assert (C' : cok h' ct L (lents l' ++ rest)) by (apply Up; auto; congruence). destruct C' as [T' O' P']. constructor; auto. eapply tok_mono; [exact T1|]. intros b Hb. unfold kat. rewrite Hn. destruct (Nat.eqb_spec b a) as [->|]; auto. rewrite N. cbn. congruence.
  - set (l := leaf_key_set c key). assert (Nl : nth_error (added h c key) (length h) = Some l) by (unfold added; rewrite nth_error_app2, Nat.sub_diag by lia; reflexivity).
    assert (Kl : leaf_key l = key) by (apply leaf_key_set_ok; auto). assert (Ln1 : length (added h c key) = S (length h)) by (unfold added; rewrite app_length; cbn; lia).
    assert (Old : forall b, (b < length h)%nat -> nth_error (added h c key) b = nth_error h b) by (intros b Hb; unfold added; now rewrite nth_error_app1 by lia).
    assert (Lb : forall b, In b L -> (b < length h)%nat) by (intros b Hb; destruct (tok_leaf _ _ _ _ T Hb) as (_ & _ & X); exact X).
    exists l, [], m. split; auto. split; auto. split; auto. split; [eapply Permutation_in; [symmetry; exact Pl|]; now left|]. split. { intros b Hb. eapply Permutation_in in Hb; [|exact Pl]. destruct Hb; auto. }
    split; auto. split; [lia|]. split; [lia|]. split; [right; auto|]. split; auto. split. { intros k Hk. intros e He. eapply flookup_none_miss; eauto. eapply cok_absent; eauto. now rewrite Hk. }
    intros l' Kl' Ol'. destruct (aset_ok _ (added h c key) (length h) l' ltac:(lia)) as (h' & X & Ln & Hn). exists h'. split; auto. split; [|split; auto; intros b Hb; rewrite Hn; destruct (Nat.eqb_spec b (length h)); [contradiction|auto]]. constructor.
    + eapply tok_mono; [exact T1|]. intros b Hb. unfold kat. rewrite Hn. destruct (Nat.eqb_spec b (length h)) as [->|]; auto. rewrite Nl. cbn. congruence.
    + intros b lb Hb Nb. rewrite Hn in Nb. destruct (Nat.eqb_spec b (length h)) as [->|Nq]; [now injection Nb as <-|]. eapply Permutation_in in Hb; [|exact Pl]. destruct Hb as [<-|Hb]; [contradiction|]. rewrite Old in Nb by auto. eauto.
    + rewrite (flat_map_perm _ _ _ _ _ Pl). cbn [flat_map]. unfold le at 1. rewrite Hn, Nat.eqb_refl. apply Permutation_app_head. rewrite (flat_map_ext_in _ _ _ (le h)); auto. intros b Hb. unfold le. rewrite Hn. specialize (Lb b Hb). destruct (Nat.eqb_spec b (length h)); [lia|]. now rewrite Old.
Qed.
Lemma cok_copy : forall copy, (forall l, leaf_key (copy l) = leaf_key l) -> (forall l, lok l -> lok (copy l) /\ lents (copy l) = lents l) ->
  forall h ct L m, cok h ct L m -> exists h2 ct', ctrie_copy h ct copy = Ok (h ++ h2, ct') /\ cok (h ++ h2) ct' (seq (length h) (length L)) m.
Proof.
  intros copy Hk Hl h ct L m [T O Pm]. destruct (tok_copy copy Hk h ct L T) as (h2 & ct' & E & T2 & Cp). exists h2, ct'. split; auto.
  assert (X : forall L0 h2 pre, Forall2 (fun a l2 => exists l, nth_error h a = Some l /\ l2 = copy l) L0 h2 -> (forall a, In a L0 -> In a L) ->
     flat_map (le (pre ++ h2)) (seq (length pre) (length L0)) = flat_map (le h) L0 /\ forall a l, In a (seq (length pre) (length L0)) -> nth_error (pre ++ h2) a = Some l -> lok l).
  { clear - Hl O. intros L0 h2 pre F. revert pre. induction F as [|a l2 L0 h2 (l & N & ->) F IH]; intros pre Sub; [split; [reflexivity|intros a l []]|]. specialize (IH (pre ++ [copy l])). rewrite app_length, <- app_assoc, Nat.add_1_r in IH. cbn [app] in IH.
    destruct IH as (I1 & I2). { intros b Hb. apply Sub. now right. } destruct (Hl l) as (Ol & El). { apply (O a); auto. apply Sub. now left. } cbn [length seq flat_map]. split.
    - rewrite I1. f_equal. unfold le. now rewrite nth_error_app2, Nat.sub_diag, N by lia.
    - intros b lb [<-|Hb] Nb; [|eauto]. rewrite nth_error_app2, Nat.sub_diag in Nb by lia. cbn in Nb. now injection Nb as <-. }
  destruct (X L h2 h Cp) as (X1 & X2); auto. constructor; auto. now rewrite X1.
Qed.
End SparseMap.

(** ** several containers in one heap *)
Section World.
Context {P K V T : Type} (lents : leaf P -> list (K * V)) (lok : leaf P -> Prop) (tr : T -> ctrie) (nok : T -> fmap K V -> Prop).
Implicit Types (h : heap P).
Notation cok := (cok lents lok).
Definition fupd (Ls : nat -> list nat) (i : nat) (L : list nat) (j : nat) : list nat := if (j =? i)%nat then L else Ls j.
Record winv h (ts : list T) (ms : list (fmap K V)) (Ls : nat -> list nat) (N : Z) : Prop := {
  wi_len : length ts = length ms;
  wi_ok : forall i t m, nth_error ts i = Some t -> nth_error ms i = Some m -> cok h (tr t) (Ls i) m /\ nok t m;
  wi_disj : forall i j a, i <> j -> (i < length ts)%nat -> (j < length ts)%nat -> In a (Ls i) -> ~ In a (Ls j);
  wi_bnd : forall m, In m ms -> Z.of_nat (length m) <= N }.

Lemma cok_perm : forall h ct L m m', cok h ct L m -> Permutation m m' -> cok h ct L m'.
Proof. intros h ct L m m' [T0 O Pm] X. constructor; auto. now rewrite <- X. Qed.
Lemma lupd_length : forall A i (x : A) l, (i < length l)%nat -> length (lupd i x l) = length l.
Proof. intros A i x l H. unfold lupd. rewrite app_length, firstn_length. cbn [length]. rewrite skipn_length. lia. Qed.
Lemma lupd_nth : forall A i (x : A) l j, (i < length l)%nat -> nth_error (lupd i x l) j = if (j =? i)%nat then Some x else nth_error l j.
Proof. intros A i x l j H. destruct (aset_ok _ l i x H) as (l' & E & _ & X). unfold aset in E. destruct (Nat.ltb_spec i (length l)); [|lia]. injection E as <-. apply X. Qed.
Lemma lupd_in : forall A i (x : A) l y, In y (lupd i x l) -> y = x \/ In y l.
Proof. intros A i x l y H. unfold lupd in H. apply in_app_iff in H. destruct H as [H|[H|H]]; auto; right; [rewrite <- (firstn_skipn i l)|rewrite <- (firstn_skipn (S i) l)]; apply in_app_iff; auto. Qed.
Lemma lupd_same : forall A i (x : A) l, nth_error l i = Some x -> lupd i x l = l.
Proof.
  intros A i x l H. unfold lupd. revert l H. induction i as [|i IH]; intros [|y l] H; try discriminate; cbn in *.
  - now injection H as ->.
  - f_equal. now apply IH.
Qed.
Lemma cok_bound : forall h ct L m a, cok h ct L m -> In a L -> (a < length h)%nat.
Proof. intros h ct L m a C Ha. destruct (tok_leaf _ _ _ _ (co_tok _ _ _ _ _ _ C) Ha) as (_ & _ & X). exact X. Qed.

Lemma winv_upd : forall h ts ms Ls N i t h' t' L' m' N', winv h ts ms Ls N -> nth_error ts i = Some t ->
  cok h' (tr t') L' m' -> nok t' m' -> N <= N' -> Z.of_nat (length m') <= N' ->
  (forall a, In a L' -> In a (Ls i) \/ (length h <= a)%nat) -> (forall a, (a < length h)%nat -> ~ In a (Ls i) -> nth_error h' a = nth_error h a) ->
  winv h' (lupd i t' ts) (lupd i m' ms) (fupd Ls i L') N'.
Proof.
  intros h ts ms Ls N i t h' t' L' m' N' [Ln Ok Dj Bd] E C Nm N1 N2 Fl Fr. assert (Hi : (i < length ts)%nat) by (apply nth_error_Some; congruence).
  assert (Bl : forall j a, (j < length ts)%nat -> In a (Ls j) -> (a < length h)%nat).
  { intros j a Hj Ha. destruct (nth_some _ ts j Hj) as (tj & Ej). destruct (nth_some _ ms j ltac:(lia)) as (mj & Emj). destruct (Ok j tj mj Ej Emj) as (Cj & _). eapply cok_bound; eauto. }
  constructor.
  - rewrite !lupd_length; auto; lia.
  - intros j tj mj. rewrite !lupd_nth by lia. unfold fupd. destruct (Nat.eqb_spec j i) as [->|Nj].
    + intros [= <-] [= <-]. auto.
    + intros Ej Emj. destruct (Ok j tj mj Ej Emj) as (Cj & Nj'). split; auto. eapply cok_frame; [exact Cj|]. intros a Ha. assert (Hj : (j < length ts)%nat) by (apply nth_error_Some; congruence). apply Fr; [eapply Bl; eauto|]. intros Ha'. eapply (Dj i j); eauto.
  - intros j k a Njk. rewrite lupd_length by lia. intros Hj Hk. unfold fupd. destruct (Nat.eqb_spec j i) as [->|Nj], (Nat.eqb_spec k i) as [->|Nk]; try lia.
    + intros Ha Hka. destruct (Fl a Ha) as [Hb|Hb]; [eapply (Dj i k); eauto|]. specialize (Bl k a Hk Hka). lia.
    + intros Hja Ha. destruct (Fl a Ha) as [Hb|Hb]; [eapply (Dj i j); eauto|]. specialize (Bl j a Hj Hja). lia.
    + apply Dj; auto.
  - intros m Hm. apply lupd_in in Hm. destruct Hm as [->|Hm]; auto. specialize (Bd m Hm). lia.
Qed.
Lemma winv_push : forall h ts ms Ls N h' t' L' m', winv h ts ms Ls N ->
  cok h' (tr t') L' m' -> nok t' m' -> Z.of_nat (length m') <= N ->
  (forall a, In a L' -> (length h <= a)%nat) -> (forall a, (a < length h)%nat -> nth_error h' a = nth_error h a) ->
  winv h' (ts ++ [t']) (ms ++ [m']) (fupd Ls (length ts) L') N.
Proof.
  intros h ts ms Ls N h' t' L' m' [Ln Ok Dj Bd] C Nm N2 Fl Fr.
  assert (Bl : forall j a, (j < length ts)%nat -> In a (Ls j) -> (a < length h)%nat).
  { intros j a Hj Ha. destruct (nth_some _ ts j Hj) as (tj & Ej). destruct (nth_some _ ms j ltac:(lia)) as (mj & Emj). destruct (Ok j tj mj Ej Emj) as (Cj & _). eapply cok_bound; eauto. }
  constructor.
  - rewrite !app_length. cbn. lia.
  - intros j tj mj Ej Emj. unfold fupd. destruct (Nat.lt_ge_cases j (length ts)) as [Hj|Hj].
    + rewrite nth_error_app1 in Ej, Emj by lia. destruct (Nat.eqb_spec j (length ts)); [lia|]. destruct (Ok j tj mj Ej Emj) as (Cj & Nj'). split; auto. eapply cok_frame; [exact Cj|]. intros a Ha. apply Fr. eapply Bl; eauto.
    + rewrite nth_error_app2 in Ej, Emj by lia. destruct (j - length ts)%nat as [|d] eqn:D; [|destruct d; discriminate]. rewrite <- Ln, D in Emj. injection Ej as <-. injection Emj as <-. destruct (Nat.eqb_spec j (length ts)); [auto|lia].
  - intros j k a Njk. rewrite app_length. cbn [length]. intros Hj Hk. unfold fupd. destruct (Nat.eqb_spec j (length ts)) as [->|Nj], (Nat.eqb_spec k (length ts)) as [->|Nk]; try lia.
    + intros Ha Hka. specialize (Bl k a ltac:(lia) Hka). specialize (Fl a Ha). lia.
    + intros Hja Ha. specialize (Bl j a ltac:(lia) Hja). specialize (Fl a Ha). lia.
    + apply Dj; auto; lia.
  - intros m Hm. apply in_app_iff in Hm. destruct Hm as [Hm|[<-|[]]]; auto.
Qed.
Lemma winv_N : forall h ts ms Ls N N', winv h ts ms Ls N -> N <= N' -> winv h ts ms Ls N'.
Proof. intros h ts ms Ls N N' [A B C D] H. constructor; auto. intros m Hm. specialize (D m Hm). lia. Qed.
End World.
