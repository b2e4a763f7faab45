(** Sparse tables refine finite maps. *)
From Coq Require Import ZArith List Bool Arith Lia Permutation.
From Verif Require Import Outcome BitsModel BitsSpec BitsProofs BitsProofs3 SparseModel SparseNode SparseTrie SparseTrie2 SparseTrie3 HashSpec HashProofs2 SparseSpec SparseMap SparseTab.
Import ListNotations.
Local Open Scope Z_scope.
Ltac Zify.zify_post_hook ::= idtac.

(** ** data bits of leaves *)
Lemma key_of_bits : forall P (l l' : leaf P), key1 l' = key1 l -> (forall i, 0 <= i < 32 -> Z.testbit (key0 l') i = Z.testbit (key0 l) i) -> leaf_key l' = leaf_key l.
Proof.
  intros P l l' H1 H0. unfold leaf_key. rewrite H1. f_equal. f_equal. apply Z.bits_inj'. intros i Hi. rewrite !Z.land_spec. unfold LEAF_KEY_MASK.
  change (2 ^ 32 - 1) with (Z.ones 32). destruct (Z.ltb_spec i 32).
  - now rewrite H0 by lia.
  - rewrite Z.ones_spec_high by lia. now rewrite !andb_false_r.
Qed.
Lemma bit_set_key : forall P (l : leaf P) b, leaf_key (leaf_data_bit_set l b) = leaf_key l.
Proof.
  intros. apply key_of_bits; auto. intros i Hi. cbn [leaf_data_bit_set key0]. pose proof (tb_set (key0 l) (b + 32) (Z.to_nat i)) as X. unfold tb in X. rewrite Z2Nat.id in X by lia. rewrite X.
  destruct (Nat.eqb_spec (Z.to_nat i) (b + 32)); [lia|auto].
Qed.
Lemma bit_reset_key : forall P (l : leaf P) b, leaf_key (leaf_data_bit_reset l b) = leaf_key l.
Proof.
  intros. apply key_of_bits; auto. intros i Hi. cbn [leaf_data_bit_reset key0]. pose proof (tb_reset (key0 l) (b + 32) (Z.to_nat i) ltac:(lia)) as X. unfold tb in X. rewrite Z2Nat.id in X by lia. rewrite X.
  destruct (Nat.eqb_spec (Z.to_nat i) (b + 32)); [lia|auto].
Qed.
Lemma body_key : forall P (l : leaf P) b, leaf_key (set_body l b) = leaf_key l. Proof. reflexivity. Qed.
Lemma word_set : forall w i, word w -> (i < 64)%nat -> word (set_in_word w i).
Proof.
  intros w i W Hi. apply word_of_bits. { unfold set_in_word. apply Z.lor_nonneg. split; [apply W|apply Z.pow_nonneg; lia]. }
  intros j Hj. pose proof (tb_set w i (Z.to_nat j)) as X. unfold tb in X. rewrite Z2Nat.id in X by lia. rewrite X, (word_high w j W Hj). destruct (Nat.eqb_spec (Z.to_nat j) i); [lia|auto].
Qed.
Lemma word_reset : forall w i, word w -> (i < 64)%nat -> word (reset_in_word w i).
Proof. intros w i W Hi. unfold reset_in_word. apply word_land; auto. apply word_cpl. now apply word_pow. Qed.
Lemma key_set_word : forall P (l : leaf P) k, word (key0 (leaf_key_set l k)).
Proof. intros P l k. cbn [leaf_key_set key0]. unfold LEAF_KEY_MASK. change (2 ^ 32 - 1) with (Z.ones 32). rewrite Z.land_ones by lia. pose proof (Z.mod_pos_bound k (2 ^ 32) ltac:(lia)). split; [lia|]. change (2 ^ 64) with (2 ^ 32 * 2 ^ 32). nia. Qed.
Lemma key_set_data : forall P (l : leaf P) k i, tb (key0 (leaf_key_set l k)) (i + 32) = false.
Proof. intros P l k i. unfold tb. cbn [leaf_key_set key0]. rewrite Z.land_spec. unfold LEAF_KEY_MASK. change (2 ^ 32 - 1) with (Z.ones 32). rewrite Z.ones_spec_high by lia. apply andb_false_r. Qed.

Section P.
Context {K V : Type} (hashfn : K -> Z) (eqf : K -> K -> bool) (KO : key_ok hashfn eqf).
Notation tleaf := (leaf (tbody K V)).
Notation miss := (miss eqf (V:=V)).

Lemma chained_tb : forall z : tleaf, leaf_is_chained z = tb (key0 z) 32.
Proof.
  intros z. unfold leaf_is_chained, leaf_data, LEAF_KEY_BITS. change 1 with (Z.ones 1). rewrite Z.land_ones by lia. change (2 ^ 1) with 2. unfold tb.
  rewrite <- (Z.add_0_l (Z.of_nat 32)), <- Z.shiftr_spec by lia. change (Z.of_nat 32) with 32. rewrite Z.bit0_odd, Zmod_odd. now destruct (Z.odd _).
Qed.
Definition lents (l : tleaf) : list (K * V) := match body l with TEntry k v => [(k, v)] | TChain n p => p :: n | _ => [] end.
Record lok (l : tleaf) : Prop := {
  lo_word : word (key0 l);
  lo_body : match body l with TEntry _ _ => leaf_is_chained l = false | TChain n _ => leaf_is_chained l = true /\ n <> [] | _ => False end;
  lo_hash : forall e, In e (lents l) -> hashfn (fst e) = leaf_key l;
  lo_dist : distinct eqf (lents l) }.

Lemma hash_u64 : forall k, u64 (hashfn k). Proof. intros. apply (ko_range _ _ KO). Qed.
(** *** chains *)
Lemma distinct_keys : forall m m' : fmap K V, map fst m = map fst m' -> distinct eqf m -> distinct eqf m'.
Proof.
  induction m as [|e m IH]; intros [|e' m'] E D; try discriminate; auto. cbn [map] in E. injection E as E1 E2. destruct D as (F & D). split; [|eauto]. rewrite E1 in F.
  clear - F E2. revert m' E2. induction m as [|x m IH]; intros [|x' m'] E2; try discriminate; constructor.
  - inversion F. cbn in E2. congruence.
  - inversion F. cbn in E2. apply IH; auto. congruence.
Qed.
Definition frep (k : K) (v : V) (m : fmap K V) : fmap K V := map (fun e => if eqf k (fst e) then (fst e, v) else e) m.
Lemma frep_keys : forall k v m, map fst (frep k v m) = map fst m.
Proof. intros. unfold frep. rewrite map_map. apply map_ext. intros e. now destruct (eqf k (fst e)). Qed.
Lemma frep_miss : forall k v m, miss k m -> frep k v m = m.
Proof. intros k v m M. unfold frep. rewrite <- (map_id m) at 2. apply map_ext_in. intros e He. now rewrite (M e He). Qed.
Lemma distinct_miss : forall (e : K * V) m k, distinct eqf (e :: m) -> eqf k (fst e) = true -> miss k m.
Proof.
  intros e m k (F & _) Q x Hx. rewrite Forall_forall in F. specialize (F x Hx). destruct (eqf k (fst x)) eqn:Q2; auto.
  rewrite (ko_sym _ _ KO) in Q. rewrite (ko_trans _ _ KO _ _ _ Q Q2) in F. discriminate.
Qed.
Lemma fput_hit : forall k v (m : fmap K V), flookup eqf k m <> None -> fput eqf k v m = frep k v m.
Proof. intros k v m H. unfold fput. destruct (flookup eqf k m); [auto|contradiction]. Qed.
Lemma fput_none : forall k v (m : fmap K V), flookup eqf k m = None -> fput eqf k v m = (k, v) :: m.
Proof. intros k v m H. unfold fput. now rewrite H. Qed.
Lemma flookup_cons : forall k (e : K * V) m, flookup eqf k (e :: m) = if eqf k (fst e) then Some (snd e) else flookup eqf k m.
Proof. intros. unfold flookup. cbn [find]. now destruct (eqf k (fst e)). Qed.
Lemma chain_set_ok : forall k v (m : fmap K V), distinct eqf m -> match chain_set eqf k v m with Some m' => flookup eqf k m <> None /\ m' = frep k v m | None => flookup eqf k m = None end.
Proof.
  intros k v. induction m as [|e m IH]; intros D; [reflexivity|]. cbn [chain_set]. rewrite flookup_cons. cbn [frep map]. rewrite (ko_sym _ _ KO k). destruct (eqf (fst e) k) eqn:Q.
  - split; [discriminate|]. f_equal. symmetry. apply (frep_miss k v m). eapply distinct_miss; eauto. now rewrite (ko_sym _ _ KO).
  - destruct D as (_ & D). specialize (IH D). destruct (chain_set eqf k v m); cbn [option_map]; auto. destruct IH as (H & ->). split; auto.
Qed.
Lemma chain_ref_ok : forall k (m : fmap K V) fb, chain_ref eqf k m fb = orelse (flookup eqf k m) fb.
Proof. intros k m fb. induction m as [|e m IH]; [reflexivity|]. cbn [chain_ref]. rewrite flookup_cons. now destruct (eqf k (fst e)). Qed.
Lemma chain_delete_ok : forall k (m : fmap K V), distinct eqf m -> match chain_delete eqf k m with Some (v, m') => flookup eqf k m = Some v /\ m' = fremove eqf k m | None => flookup eqf k m = None end.
Proof.
  intros k. induction m as [|e m IH]; intros D; [reflexivity|]. cbn [chain_delete]. rewrite flookup_cons. unfold fremove. cbn [filter]. destruct (eqf k (fst e)) eqn:Q; cbn [negb].
  - split; auto. symmetry. apply (fremove_miss eqf k m). eapply distinct_miss; eauto.
  - destruct D as (_ & D). specialize (IH D). destruct (chain_delete eqf k m) as [[v m']|]; cbn [option_map fst snd]; auto. destruct IH as (H & ->). split; auto.
Qed.
Lemma distinct_fput : forall k v (m : fmap K V), distinct eqf m -> distinct eqf (fput eqf k v m).
Proof.
  intros k v m D. destruct (flookup eqf k m) eqn:E.
  - rewrite fput_hit by congruence. eapply distinct_keys; [symmetry; apply frep_keys|auto].
  - rewrite fput_none by auto. split; auto. apply Forall_forall. intros e He. now apply (flookup_none_miss eqf k m E).
Qed.
Lemma distinct_fremove : forall k (m : fmap K V), distinct eqf m -> distinct eqf (fremove eqf k m).
Proof.
  intros k. induction m as [|e m IH]; intros D; auto. destruct D as (F & D). unfold fremove. cbn [filter]. destruct (negb (eqf k (fst e))); [|now apply IH]. split; [|now apply IH].
  rewrite Forall_forall in *. intros x Hx. apply filter_In in Hx. now apply F.
Qed.
Lemma fput_in : forall k v (m : fmap K V) e, In e (fput eqf k v m) -> e = (k, v) \/ exists e', In e' m /\ fst e = fst e'.
Proof.
  intros k v m e H. unfold fput in H. destruct (flookup eqf k m).
  - apply in_map_iff in H. destruct H as (x & <- & Hx). right. exists x. split; auto. now destruct (eqf k (fst x)).
  - destruct H as [<-|H]; auto. right. eauto.
Qed.
Lemma fput_length : forall k v (m : fmap K V), length (fput eqf k v m) = if bound (flookup eqf k m) then length m else S (length m).
Proof. intros. unfold fput. destruct (flookup eqf k m); cbn [bound]; [apply map_length|reflexivity]. Qed.
Lemma fremove_length : forall k (m : fmap K V), distinct eqf m -> length m = if bound (flookup eqf k m) then S (length (fremove eqf k m)) else length (fremove eqf k m).
Proof.
  intros k. induction m as [|e m IH]; intros D; [reflexivity|]. rewrite flookup_cons. unfold fremove. cbn [filter]. destruct (eqf k (fst e)) eqn:Q; cbn [negb bound].
  - fold (fremove eqf k m). rewrite fremove_miss; [reflexivity|]. eapply distinct_miss; eauto.
  - destruct D as (_ & D). specialize (IH D). cbn [length]. fold (fremove eqf k m). destruct (bound (flookup eqf k m)); lia.
Qed.

(** *** one table *)
Notation cok := (cok lents lok).
Notation le := (le lents).
Lemma LH : forall l, lok l -> forall e, In e (lents l) -> hashfn (fst e) = leaf_key l. Proof. intros l O. apply O. Qed.
Lemma LD : forall l, lok l -> distinct eqf (lents l). Proof. intros l O. apply O. Qed.
Lemma frame_set : forall h (h1 h2 : heap (tbody K V)) (a : nat) (L : list nat), (forall b, (b < length h)%nat -> nth_error h1 b = nth_error h b) -> (a < length h -> In a L)%nat -> (forall b, b <> a -> nth_error h2 b = nth_error h1 b) ->
  forall b, (b < length h)%nat -> ~ In b L -> nth_error h2 b = nth_error h b.
Proof. intros h h1 h2 a L F Ha F2 b Hb Nb. rewrite F2; auto. intros ->. auto. Qed.

Lemma ref_ok : forall h ct L m k fb num, cok h ct L m -> sparse_table_ref hashfn eqf h (mkSt ct num) k fb = Ok (orelse (flookup eqf k m) fb).
Proof.
  intros h ct L m k fb num C. unfold sparse_table_ref. cbn [st_trie]. destruct (cok_get hashfn eqf KO lents lok LH LD h ct L m k C) as (r & -> & X). cbn [bind]. destruct r as [a|].
  - destruct X as (_ & l & N & _ & O & ->). rewrite (aget_ok _ _ _ _ N). cbn [bind]. pose proof (lo_body l O) as B. unfold lents. destruct (body l) as [|k0 v0|next pr|]; try contradiction.
    + rewrite B, flookup_cons. cbn [fst snd]. destruct (eqf k k0); reflexivity.
    + destruct B as (-> & _). rewrite flookup_cons. destruct (eqf k (fst pr)); [reflexivity|]. now rewrite chain_ref_ok.
  - rewrite X. reflexivity.
Qed.
Lemma set_chained_ok : forall z k v next pr l' new, set_chained eqf z k v next pr = (l', new) -> distinct eqf (pr :: next) -> word (key0 z) -> leaf_is_chained z = true ->
  (new = false -> next <> []) -> (forall e, In e (pr :: next) -> hashfn (fst e) = leaf_key z) -> hashfn k = leaf_key z ->
  leaf_key l' = leaf_key z /\ lok l' /\ Permutation (lents l') (fput eqf k v (pr :: next)) /\ new = negb (bound (flookup eqf k (pr :: next))).
Proof.
  intros z k v next pr l' new E D W Ch Ne Hh Hk. unfold set_chained in E.
  assert (Fin : forall n1 p1, l' = set_body z (TChain n1 p1) -> Permutation (p1 :: n1) (fput eqf k v (pr :: next)) -> n1 <> [] -> new = negb (bound (flookup eqf k (pr :: next))) ->
     leaf_key l' = leaf_key z /\ lok l' /\ Permutation (lents l') (fput eqf k v (pr :: next)) /\ new = negb (bound (flookup eqf k (pr :: next)))).
  { intros n1 p1 -> Pm Nn Nw. split; [reflexivity|]. split; [|auto]. constructor; auto.
    - cbn [set_body body]. split; auto.
    - intros e He. change (leaf_key (set_body z (TChain n1 p1))) with (leaf_key z). unfold lents in He. cbn [set_body body] in He. eapply Permutation_in in He; [|exact Pm]. apply fput_in in He. destruct He as [->|(e' & He' & ->)]; auto.
    - unfold lents. cbn [set_body body]. eapply (distinct_perm hashfn eqf KO); [symmetry; exact Pm|]. now apply distinct_fput. }
  destruct (eqf (fst pr) k) eqn:Q.
  - injection E as <- <-. rewrite (ko_sym _ _ KO) in Q. apply (Fin next (fst pr, v)); auto.
    + rewrite fput_hit by (rewrite flookup_cons, Q; discriminate). cbn [frep map]. rewrite Q. fold (frep k v next). rewrite frep_miss; auto. eapply distinct_miss; eauto.
    + rewrite flookup_cons, Q. reflexivity.
  - destruct D as (F & D). pose proof (chain_set_ok k v next D) as X. rewrite (ko_sym _ _ KO) in Q. destruct (chain_set eqf k v next) as [n1|].
    + injection E as <- <-. destruct X as (Hit & ->). apply (Fin (frep k v next) pr); auto.
      * rewrite fput_hit by (rewrite flookup_cons, Q; auto). cbn [frep map]. rewrite Q. reflexivity.
      * intros C0. apply map_eq_nil in C0. now apply Ne.
      * rewrite flookup_cons, Q. destruct (flookup eqf k next); [reflexivity|contradiction].
    + injection E as <- <-. apply (Fin (pr :: next) (k, v)); auto; [|discriminate|]; [rewrite fput_none; auto|]; rewrite flookup_cons, Q; auto. now rewrite X.
Qed.
Lemma set_ok : forall g0 g1 h ct L m k v, cok h ct L m -> Z.of_nat (length m) + 1 < 2 ^ 64 -> exists h' ct' num' L',
  sparse_table_set hashfn eqf g0 g1 h (mkSt ct (Z.of_nat (length m))) k v = Ok (h', mkSt ct' num') /\ cok h' ct' L' (fput eqf k v m) /\ num' = Z.of_nat (length (fput eqf k v m)) /\
  (forall b, In b L' -> In b L \/ (length h <= b)%nat) /\ (forall b, (b < length h)%nat -> ~ In b L -> nth_error h' b = nth_error h b).
Proof.
  intros g0 g1 h ct L m k v C Bd. unfold sparse_table_set. cbn [st_trie st_num].
  destruct (cok_add hashfn eqf KO lents lok LH LD h ct L m (hashfn k) (leaf_allocate g0 g1) C (hash_u64 k)) as (h1 & ct1 & a & L1 & l & x & rest & E & N & Kl & Ia & Fl & Fr & Ln & Ha & Cx & Pm & Ms & Up).
  rewrite E. cbn [bind]. rewrite (aget_ok _ _ _ _ N). cbn [bind]. pose proof (cok_distinct hashfn eqf KO lents lok LH LD h ct L m C) as Dm.
  assert (Mk : miss k rest) by auto.
  assert (Pf : Permutation (fput eqf k v m) (fput eqf k v x ++ rest)). { rewrite <- fput_app by auto. now apply (fput_perm hashfn eqf KO). }
  assert (Lk : flookup eqf k m = flookup eqf k x). { rewrite (flookup_perm hashfn eqf KO k m _ Pm Dm). now apply flookup_app. }
  assert (Fin : forall l' new, leaf_key l' = hashfn k -> lok l' -> Permutation (lents l') (fput eqf k v x) -> new = negb (bound (flookup eqf k x)) ->
    exists h' ct' num' L', (do h2 <- aset h1 a (fst (l', new)); Ok (h2, mkSt ct1 (if (snd (l', new) : bool) then (Z.of_nat (length m) + 1) mod 2 ^ 64 else Z.of_nat (length m)))) = Ok (h', mkSt ct' num') /\ cok h' ct' L' (fput eqf k v m) /\ num' = Z.of_nat (length (fput eqf k v m)) /\
      (forall b, In b L' -> In b L \/ (length h <= b)%nat) /\ (forall b, (b < length h)%nat -> ~ In b L -> nth_error h' b = nth_error h b)).
  { intros l' new Kl' Ol' Pl ->. destruct (Up l' Kl' Ol') as (h' & X & C' & Ln' & Fr'). cbn [fst snd]. rewrite X. cbn [bind]. eexists _, _, _, L1. split; [reflexivity|]. split.
    - eapply cok_perm; [exact C'|]. rewrite Pf. now apply Permutation_app_tail.
    - split; [|split].
      + rewrite fput_length, Lk. destruct (bound (flookup eqf k x)); cbn [negb]; auto. rewrite Z.mod_small by lia. lia.
      + intros b Hb. destruct (Fl b Hb); auto. right. lia.
      + eapply frame_set; eauto. }
  destruct Cx as [(-> & O)|(-> & ->)].
  - pose proof (lo_body l O) as B. pose proof (lo_dist l O) as D. pose proof (lo_hash l O) as Hh. pose proof (lo_word l O) as W. unfold lents in Fin, D, Hh, Fin. destruct (body l) as [|k0 v0|next pr|]; try contradiction.
    + rewrite B. rewrite (ko_sym _ _ KO). destruct (eqf k k0) eqn:Q.
      * cbn [bind]. apply Fin; [exact Kl| |unfold fput; rewrite flookup_cons; cbn [fst]; rewrite Q; cbn [map fst]; rewrite Q; reflexivity|rewrite flookup_cons; cbn [fst]; rewrite Q; reflexivity].
        constructor; auto. { cbn [lents set_body body]. intros e [<-|[]]. apply (Hh (k0, v0)). now left. }
      * cbn [bind]. destruct (set_chained eqf (leaf_mark_chained l) k v [] (k0, v0)) as [l' new] eqn:S. assert (Nw : new = true). { unfold set_chained in S. cbn [fst] in S. rewrite (ko_sym _ _ KO), Q in S. cbn [chain_set] in S. now injection S as _ <-. }
        destruct (set_chained_ok _ _ _ _ _ _ _ S) as (K1 & O1 & P1 & N1); [exact D| | | | | |].
        { apply word_set; auto. lia. } { rewrite chained_tb. cbn [leaf_mark_chained leaf_data_bit_set key0]. rewrite tb_set. reflexivity. } { congruence. }
        { intros e He. unfold leaf_mark_chained. rewrite bit_set_key. apply Hh. exact He. } { unfold leaf_mark_chained. rewrite bit_set_key. congruence. }
        apply Fin; auto. rewrite K1. unfold leaf_mark_chained. now rewrite bit_set_key.
    + destruct B as (Ch & Ne). rewrite Ch. cbn [bind]. destruct (set_chained eqf l k v next pr) as [l' new] eqn:S. destruct (set_chained_ok _ _ _ _ _ _ _ S) as (K1 & O1 & P1 & N1); auto. apply Fin; auto. congruence.
  - cbn [leaf_key_set leaf_allocate body]. rewrite chained_tb, (key_set_data _ _ _ 0). cbn [bind]. apply Fin; [exact Kl| |reflexivity|reflexivity]. constructor.
    + apply key_set_word.
    + cbn [set_body body]. rewrite chained_tb. apply (key_set_data _ _ _ 0).
    + cbn [lents set_body body]. intros e [<-|[]]. cbn [fst]. symmetry. exact Kl.
    + cbn [lents set_body body]. repeat constructor.
Qed.

Lemma unchain_ok : forall z next pr, lok z -> leaf_is_chained z = true -> distinct eqf (pr :: next) -> (forall e, In e (pr :: next) -> hashfn (fst e) = leaf_key z) ->
  leaf_key (unchain z next pr) = leaf_key z /\ lok (unchain z next pr) /\ lents (unchain z next pr) = pr :: next.
Proof.
  intros z next pr O Ch D Hh. pose proof (lo_word z O) as W. destruct next as [|p next]; cbn [unchain].
  - assert (Kl : leaf_key (set_body (leaf_mark_unchained z) (TEntry (fst pr) (snd pr))) = leaf_key z) by (rewrite body_key; apply bit_reset_key).
    split; auto. split; [|unfold lents; cbn [set_body body]; now destruct pr]. constructor.
    + cbn [set_body key0 leaf_mark_unchained leaf_data_bit_reset]. apply word_reset; auto. lia.
    + cbn [set_body body]. rewrite chained_tb. cbn [set_body key0 leaf_mark_unchained leaf_data_bit_reset]. rewrite tb_reset by lia. reflexivity.
    + rewrite Kl. unfold lents. cbn [set_body body]. intros e [<-|[]]. apply (Hh pr). now left.
    + unfold lents. cbn [set_body body]. repeat constructor.
  - split; [reflexivity|]. split; [|reflexivity]. constructor; auto. cbn [set_body body]. split; [exact Ch|discriminate].
Qed.
Lemma delete_ok : forall h ct L m k, cok h ct L m -> Z.of_nat (length m) < 2 ^ 64 -> exists h' ct' num' L',
  sparse_table_delete hashfn eqf h (mkSt ct (Z.of_nat (length m))) k = Ok (h', mkSt ct' num', flookup eqf k m) /\ cok h' ct' L' (fremove eqf k m) /\ num' = Z.of_nat (length (fremove eqf k m)) /\
  (forall b, In b L' -> In b L \/ (length h <= b)%nat) /\ (forall b, (b < length h)%nat -> ~ In b L -> nth_error h' b = nth_error h b).
Proof.
  intros h ct L m k C Bd. unfold sparse_table_delete. cbn [st_trie st_num]. pose proof (cok_distinct hashfn eqf KO lents lok LH LD h ct L m C) as Dm. pose proof (fremove_length k m Dm) as FL.
  assert (Nm : forall v, flookup eqf k m = Some v -> (Z.of_nat (length m) - 1) mod 2 ^ 64 = Z.of_nat (length (fremove eqf k m))). { intros v Hv. rewrite Hv in FL. cbn [bound] in FL. rewrite FL in *. rewrite Z.mod_small; lia. }
  assert (Same : flookup eqf k m = None -> fremove eqf k m = m) by (intros X; apply fremove_miss; now apply flookup_none_miss).
  destruct (cok_get hashfn eqf KO lents lok LH LD h ct L m k C) as (r & -> & X). cbn [bind]. destruct r as [a|].
  2:{ exists h, ct, (Z.of_nat (length m)), L. rewrite X. split; auto. rewrite (Same X). auto 10. }
  destruct X as (Ha & l & N & Kl & O & Lk). rewrite (aget_ok _ _ _ _ N). cbn [bind]. destruct (cok_split hashfn eqf KO lents lok LH h ct L m a l C Ha N) as (rest & Pm & Ms & Up & Dl). assert (Mk : miss k rest) by auto.
  assert (Pf : Permutation (fremove eqf k m) (fremove eqf k (lents l) ++ rest)). { rewrite <- fremove_app by auto. now apply fremove_perm. }
  pose proof (lo_body l O) as B. pose proof (lo_dist l O) as D. pose proof (lo_hash l O) as Hh.
  (* a chain rewritten in place *)
  assert (Fin : forall l' num', leaf_key l' = leaf_key l -> lok l' -> lents l' = fremove eqf k (lents l) -> num' = Z.of_nat (length (fremove eqf k m)) ->
    exists h' ct' num'' L', (do h1 <- aset h a l'; Ok (h1, mkSt ct num', flookup eqf k m)) = Ok (h', mkSt ct' num'', flookup eqf k m) /\ cok h' ct' L' (fremove eqf k m) /\ num'' = Z.of_nat (length (fremove eqf k m)) /\
      (forall b, In b L' -> In b L \/ (length h <= b)%nat) /\ (forall b, (b < length h)%nat -> ~ In b L -> nth_error h' b = nth_error h b)).
  { intros l' num' Kl' Ol' El ->. destruct (aset_ok _ h a l') as (h' & X & Ln & Hn). { apply nth_error_Some. congruence. } rewrite X. cbn [bind]. exists h', ct, (Z.of_nat (length (fremove eqf k m))), L. split; auto. split; [|split; [auto|split; [auto|]]].
    - eapply cok_perm; [apply (Up l' h'); auto|]. rewrite Pf, El. auto.
    - intros b Hb Nb. rewrite Hn. destruct (Nat.eqb_spec b a) as [->|]; [contradiction|auto]. }
  destruct (body l) as [|k0 v0|next pr|] eqn:Eb; try contradiction.
  - assert (El : lents l = [(k0, v0)]) by (unfold lents; now rewrite Eb). rewrite El in Lk, D, Hh, Fin, Pf, Pm. rewrite B. rewrite flookup_cons in Lk. cbn [fst snd] in Lk. unfold flookup in Lk at 2. cbn in Lk. destruct (eqf k k0) eqn:Q.
    + destruct (tok_delete h ct L (hashfn k) (co_tok _ _ _ _ _ _ C)) as (ct1 & del & L1 & E & T1 & Y). rewrite E. cbn [bind fst].
      assert (Ka : kat h a = Some (hashfn k)) by (unfold kat; rewrite N; cbn; now rewrite Kl). destruct del as [a'|]; [|destruct Y as (Y & _); exfalso; apply Y; exists a; auto].
      destruct Y as (Ia & Ka' & P1). assert (a' = a) by (eapply (tok_inj h ct L); eauto; apply C). subst a'. exists h, ct1, ((Z.of_nat (length m) - 1) mod 2 ^ 64), L1. rewrite Lk. split; auto. split; [|split; [eapply Nm; eauto|split; [|auto]]].
      * eapply cok_perm; [apply (Dl ct1 L1); auto|]. rewrite Pf. unfold fremove. cbn [filter fst]. rewrite Q. reflexivity.
      * intros b Hb. left. eapply Permutation_in; [symmetry; exact P1|]. now right.
    + exists h, ct, (Z.of_nat (length m)), L. rewrite Lk. split; auto. rewrite (Same Lk). auto 10.
  - assert (El : lents l = pr :: next) by (unfold lents; now rewrite Eb). rewrite El in Lk, D, Hh, Fin, Pf, Pm. destruct B as (Ch & Ne). rewrite Ch. rewrite flookup_cons in Lk. destruct (eqf k (fst pr)) eqn:Q.
    + assert (Mn : miss k next) by (eapply distinct_miss; eauto). destruct next as [|p next1]; [contradiction|]. destruct (unchain_ok l next1 p O Ch) as (U1 & U2 & U3); [apply D|intros e He; apply Hh; now right|]. rewrite <- Lk.
      apply Fin; auto. * rewrite U3. unfold fremove. cbn [filter]. rewrite Q. cbn [negb]. symmetry. apply (fremove_miss eqf k (p :: next1) Mn). * eapply Nm; eauto.
    + pose proof (chain_delete_ok k next (proj2 D)) as X. destruct (chain_delete eqf k next) as [[v next1]|].
      * destruct X as (Hv & ->). assert (Er : fremove eqf k (pr :: next) = pr :: fremove eqf k next) by (unfold fremove; cbn [filter]; rewrite Q; reflexivity).
        destruct (unchain_ok l (fremove eqf k next) pr O Ch) as (U1 & U2 & U3). { rewrite <- Er. now apply distinct_fremove. } { intros e [<-|He]; [apply Hh; now left|]. apply Hh. right. apply filter_In in He. tauto. }
        rewrite <- Hv, <- Lk. apply Fin; auto. { now rewrite U3, Er. } eapply Nm. rewrite Lk. exact Hv.
      * destruct (unchain_ok l next pr O Ch D Hh) as (U1 & U2 & U3). rewrite <- X, <- Lk. apply Fin; auto. { rewrite U3. symmetry. apply fremove_miss. apply flookup_none_miss. rewrite flookup_cons, Q. exact X. } rewrite Same; auto. now rewrite Lk.
Qed.
Lemma clear_leaf_key : forall l : tleaf, leaf_key (clear_leaf l) = leaf_key l. Proof. reflexivity. Qed.
Lemma copy_leaf_key : forall l : tleaf, leaf_key (copy_leaf l) = leaf_key l. Proof. reflexivity. Qed.
Lemma copy_leaf_ok : forall l, lok l -> lok (copy_leaf l) /\ lents (copy_leaf l) = lents l.
Proof.
  intros l O. pose proof (lo_body l O) as B. assert (Mp : forall x : list (K * V), map (fun p => (fst p, snd p)) x = x) by (intros x; rewrite <- (map_id x) at 2; apply map_ext; now intros []).
  assert (E : body (copy_leaf l) = body l). { cbn [copy_leaf body]. destruct (body l) as [| | |]; try contradiction; [now rewrite B|]. destruct B as (-> & _). rewrite Mp. now destruct pr. }
  assert (El : lents (copy_leaf l) = lents l) by (unfold lents; now rewrite E). split; auto. constructor.
  - apply O. - rewrite E. exact B. - rewrite El. apply O. - rewrite El. apply O.
Qed.
Lemma fold_ok : forall A (proc : K -> V -> A -> A) h ct num L m, cok h ct L m -> forall fuel it B c seed, itpos h L (si_ct it) B -> si_end it = false -> si_chain it = c -> (length (c ++ flat_map (le h) B) < fuel)%nat ->
  fold_loop fuel h (mkSt ct num) proc it seed = Ok (fold_left (fun s e => proc (fst e) (snd e) s) (c ++ flat_map (le h) B) seed).
Proof.
  intros A proc h ct num L m C. induction fuel as [|fuel IH]; intros it B c seed Ip En Ec Hl; [lia|]. cbn [fold_loop]. unfold sparse_table_iter_next. rewrite En, Ec. cbn [st_trie].
  destruct c as [|p c].
  - pose proof (co_tok _ _ _ _ _ _ C) as T. destruct (tok_next h ct L (si_ct it) B T Ip) as (it' & -> & X). cbn [bind fst snd]. destruct B as [|a B]; cbn [hd_error]; [reflexivity|].
    assert (Ia : In a L). { destruct Ip as (_ & [(_ & <-)|(_ & A0 & b & -> & _)]); [now left|]. rewrite in_app_iff. right. right. now left. }
    destruct (tok_leaf _ _ _ _ T Ia) as (l & N & _). rewrite (aget_ok _ _ _ _ N). cbn [bind]. pose proof (co_lok _ _ _ _ _ _ C a l Ia N) as O. pose proof (lo_body l O) as Bd.
    assert (El : le h a = lents l) by (unfold SparseMap.le; now rewrite N). cbn [flat_map app] in Hl |- *. rewrite El in *. unfold lents in *. destruct (body l) as [|k v|next pr|]; try contradiction.
    + rewrite Bd. cbn [bind fst snd app fold_left length] in *. apply (IH (mkSi it' [] false) B []); auto. cbn [app]. lia.
    + destruct Bd as (-> & _). cbn [bind fst snd app fold_left length] in *. apply (IH (mkSi it' next false) B next); auto. lia.
  - cbn [bind fst snd app fold_left length] in *. apply (IH (mkSi (si_ct it) c false) B c); auto. lia.
Qed.
Lemma table_fold_ok : forall A (proc : K -> V -> A -> A) seed h ct L m, cok h ct L m -> exists es, Permutation m es /\
  sparse_table_fold h (mkSt ct (Z.of_nat (length m))) proc seed = Ok (fold_left (fun s e => proc (fst e) (snd e) s) es seed).
Proof.
  intros A proc seed h ct L m C. exists (flat_map (le h) L). split; [apply C|]. unfold sparse_table_fold. cbn [st_num]. rewrite Nat2Z.id.
  apply (fold_ok A proc h ct _ L m C _ sparse_table_iter_init L []); auto. { apply itpos_init. } cbn [app]. rewrite <- (Permutation_length (co_perm _ _ _ _ _ _ C)). lia.
Qed.
Lemma fold_collect : forall (es acc : fmap K V), fold_left (fun s e => s ++ [(fst e, snd e)]) es acc = acc ++ es.
Proof. induction es as [|[k v] es IH]; intros acc; cbn [fold_left fst snd]; [now rewrite app_nil_r|]. rewrite IH, <- app_assoc. reflexivity. Qed.

(** *** all the tables *)
Notation winv := (winv lents lok st_trie (fun st m => st_num st = Z.of_nat (length m))).
Definition wok (w : world K V) (ms : list (fmap K V)) (N : Z) : Prop := exists Ls, winv (w_heap w) (w_tabs w) ms Ls N.

(** an operation on one table *)
Lemma on_ok : forall w ms N i f fs, wok w ms N -> N + 1 < 2 ^ 64 ->
  (forall ct L m, cok (w_heap w) ct L m -> Z.of_nat (length m) <= N -> exists h' ct' num' L' a, f (mkSt ct (Z.of_nat (length m))) = Ok (h', mkSt ct' num', a) /\
     cok h' ct' L' (fst (fs m)) /\ num' = Z.of_nat (length (fst (fs m))) /\ Z.of_nat (length (fst (fs m))) <= N + 1 /\ sans_same a (snd (fs m)) /\
     (forall b, In b L' -> In b L \/ (length (w_heap w) <= b)%nat) /\ (forall b, (b < length (w_heap w))%nat -> ~ In b L -> nth_error h' b = nth_error (w_heap w) b)) ->
  exists w' a, on_tab w i f = Ok (w', a) /\ sans_same a (snd (on ms i fs)) /\ wok w' (fst (on ms i fs)) (N + 1).
Proof.
  intros w ms N i f fs (Ls & W) Bd H. unfold on_tab, on. destruct (nth_error (w_tabs w) i) as [st|] eqn:E.
  - assert (Hi : (i < length (w_tabs w))%nat) by (apply nth_error_Some; congruence). destruct (nth_some _ ms i) as (m & Em). { rewrite <- (wi_len _ _ _ _ _ _ _ _ _ W). exact Hi. }
    rewrite Em. destruct (wi_ok _ _ _ _ _ _ _ _ _ W i st m E Em) as (C & Nm). destruct st as [ct num]. cbn [st_trie st_num] in C, Nm. subst num.
    destruct (H ct (Ls i) m C) as (h' & ct' & num' & L' & a & X & C' & Nm' & Bd' & An & Fl & Fr). { apply (wi_bnd _ _ _ _ _ _ _ _ _ W). eapply nth_error_In; eauto. }
    rewrite X. cbn [bind fst snd]. destruct (fs m) as [m1 an]. cbn [fst snd] in *. eexists _, _. split; [reflexivity|]. split; auto. exists (fupd Ls i L'). cbn [w_heap w_tabs]. eapply winv_upd; eauto; lia.
  - assert (Hi : nth_error ms i = None). { apply nth_error_None. rewrite <- (wi_len _ _ _ _ _ _ _ _ _ W). now apply nth_error_None. } rewrite Hi. cbn [fst snd]. eexists _, _. split; [reflexivity|]. split; [reflexivity|]. exists Ls. eapply winv_N; eauto. lia.
Qed.
Lemma fput_bound : forall k v (m : fmap K V) N, Z.of_nat (length m) <= N -> Z.of_nat (length (fput eqf k v m)) <= N + 1.
Proof. intros k v m N H. rewrite fput_length. destruct (bound _); lia. Qed.

Lemma step_ok : forall g o w ms N, wok w ms N -> 0 <= N -> N + 1 < 2 ^ 64 ->
  exists w' a, table_step hashfn eqf g o w = Ok (w', a) /\ sans_same a (snd (sspec_step eqf o ms)) /\ wok w' (fst (sspec_step eqf o ms)) (N + 1).
Proof.
  intros g o w ms N W N0 Bd. destruct o as [|i k v|i k fb|i k|i k|i k f fb|i|i|i|i|i]; cbn [table_step sspec_step].
  - destruct W as (Ls & W). eexists _, _. split; [reflexivity|]. split; [reflexivity|]. eexists. cbn [w_heap w_tabs]. eapply winv_N with (N := N); [|lia]. eapply (winv_push _ _ _ _ _ _ _ _ _ _ make_sparse_table [] []); [exact W| |reflexivity|exact N0|intros a []|auto].
    constructor; [apply tok_init|intros a l []|reflexivity].
  - apply on_ok; auto. intros ct L m C Hm. destruct (set_ok (fst g) (snd g) (w_heap w) ct L m k v C ltac:(lia)) as (h' & ct' & num' & L' & E & R1 & R2 & R3 & R4). exists h', ct', num', L', AUnit. rewrite E. cbn [bind fst snd]. split; auto. split; auto. split; auto. split; [now apply fput_bound|]. split; [reflexivity|]. auto.
  - apply on_ok; auto. intros ct L m C Hm. exists (w_heap w), ct, (Z.of_nat (length m)), L, (val_or_err (orelse (flookup eqf k m) fb)). rewrite (ref_ok _ _ L m) by auto. cbn [bind fst snd]. split; auto. split; auto. split; auto. split; [lia|]. split; [|auto]. unfold val_or_err. destruct (orelse _ _); reflexivity.
  - apply on_ok; auto. intros ct L m C Hm. exists (w_heap w), ct, (Z.of_nat (length m)), L, (ABool (bound (flookup eqf k m))). rewrite (ref_ok _ _ L m) by auto. cbn [bind fst snd]. split; [|split; auto; split; auto; split; [lia|]; split; [reflexivity|auto]]. unfold orelse. now destruct (flookup eqf k m).
  - apply on_ok; auto. intros ct L m C Hm. destruct (delete_ok (w_heap w) ct L m k C ltac:(lia)) as (h' & ct' & num' & L' & E & R1 & R2 & R3 & R4). exists h', ct', num', L', (ABool (bound (flookup eqf k m))). rewrite E. cbn [bind fst snd]. split; auto. split; auto. split; auto.
    split. { pose proof (fremove_length k m (cok_distinct hashfn eqf KO lents lok LH LD _ _ _ _ C)). destruct (bound _); lia. } split; [reflexivity|]. auto.
  - apply on_ok; auto. intros ct L m C Hm. rewrite (ref_ok _ _ L m) by auto. cbn [bind]. destruct (orelse (flookup eqf k m) fb) as [v|].
    + destruct (set_ok (fst g) (snd g) (w_heap w) ct L m k (f v) C ltac:(lia)) as (h' & ct' & num' & L' & E & R1 & R2 & R3 & R4). exists h', ct', num', L', (AVal (f v)). rewrite E. cbn [bind fst snd]. split; auto. split; auto. split; auto. split; [now apply fput_bound|]. split; [reflexivity|]. auto.
    + exists (w_heap w), ct, (Z.of_nat (length m)), L, AErr. cbn [fst snd]. split; auto. split; auto. split; auto. split; [lia|]. split; [reflexivity|auto].
  - apply on_ok; auto. intros ct L m C Hm. unfold sparse_table_clear. cbn [st_trie]. destruct (tok_clear clear_leaf clear_leaf_key (w_heap w) ct L (co_tok _ _ _ _ _ _ C)) as (h' & ct' & E & T & Ln & Fr). rewrite E. cbn [bind fst snd].
    exists h', ct', 0, [], AUnit. split; auto. split; [constructor; auto; intros a l []|]. split; [reflexivity|]. split; [cbn; lia|]. split; [reflexivity|]. split; [intros b []|auto].
  - destruct W as (Ls & W). destruct (nth_error (w_tabs w) i) as [st|] eqn:E.
    + assert (Hi : (i < length (w_tabs w))%nat) by (apply nth_error_Some; congruence). destruct (nth_some _ ms i) as (m & Em). { rewrite <- (wi_len _ _ _ _ _ _ _ _ _ W). exact Hi. }
      rewrite Em. destruct (wi_ok _ _ _ _ _ _ _ _ _ W i st m E Em) as (C & Nm). unfold sparse_table_copy. destruct (cok_copy lents lok copy_leaf copy_leaf_key copy_leaf_ok _ _ _ _ C) as (h2 & ct' & X & C'). rewrite X. cbn [bind fst snd].
      eexists _, _. split; [reflexivity|]. split; [reflexivity|]. eexists. cbn [w_heap w_tabs]. eapply winv_N with (N := N); [|lia]. eapply winv_push; eauto.
      * apply (wi_bnd _ _ _ _ _ _ _ _ _ W). eapply nth_error_In; eauto.
      * intros a Ha. apply in_seq in Ha. lia.
      * intros a Ha. now rewrite nth_error_app1 by lia.
    + assert (Hi : nth_error ms i = None). { apply nth_error_None. rewrite <- (wi_len _ _ _ _ _ _ _ _ _ W). now apply nth_error_None. } rewrite Hi. eexists _, _. split; [reflexivity|]. split; [reflexivity|]. exists Ls. eapply winv_N; eauto. lia.
  - apply on_ok; auto. intros ct L m C Hm. exists (w_heap w), ct, (Z.of_nat (length m)), L, (ANum (Z.of_nat (length m))). cbn [fst snd st_num]. split; auto. split; auto. split; auto. split; [lia|]. split; [reflexivity|auto].
  - apply on_ok; auto. intros ct L m C Hm. destruct (table_fold_ok _ (fun k v s => s ++ [(k, v)]) [] (w_heap w) ct L m C) as (es & Pm & X). rewrite X, fold_collect. cbn [bind app]. exists (w_heap w), ct, (Z.of_nat (length m)), L, (AList es). cbn [fst snd]. split; auto. split; auto. split; auto. split; [lia|]. split; [cbn [sans_same]; now symmetry|auto].
  - assert (X : exists w' a, on_tab w i (fun st => do _ <- ctrie_check (st_trie st); Ok (w_heap w, st, AUnit)) = Ok (w', a) /\ sans_same a (snd (on ms i (fun m => (m, AUnit (V:=V))))) /\ wok w' (fst (on ms i (fun m => (m, AUnit (V:=V))))) (N + 1)).
    { apply on_ok; auto. intros ct L m C Hm. cbn [st_trie]. rewrite (tok_check (w_heap w) ct L) by apply C. cbn [bind]. exists (w_heap w), ct, (Z.of_nat (length m)), L, AUnit. cbn [fst snd]. split; auto. split; auto. split; auto. split; [lia|]. split; [reflexivity|auto]. }
    destruct X as (w' & a & X & An & W'). exists w', a. split; auto. unfold on in *. destruct (nth_error ms i) as [m|] eqn:Em; cbn [fst snd] in *; auto. rewrite (lupd_same _ _ _ _ Em) in W'. auto.
Qed.
Lemma run_ok : forall ops gs w ms N, wok w ms N -> 0 <= N -> N + Z.of_nat (length ops) < 2 ^ 64 ->
  exists w' l, table_run hashfn eqf gs ops w = Ok (w', l) /\ Forall2 sans_same l (snd (sspec_run eqf ops ms)) /\ wok w' (fst (sspec_run eqf ops ms)) (N + Z.of_nat (length ops)).
Proof.
  induction ops as [|o ops IH]; intros gs w ms N W N0 Bd.
  - exists w, []. split; auto. split; [constructor|]. cbn. now rewrite Z.add_0_r.
  - cbn [length] in Bd. destruct (step_ok (gs O) o w ms N W N0 ltac:(lia)) as (w1 & a & E & An & W1). cbn [table_run sspec_run]. rewrite E. cbn [bind fst snd]. destruct (sspec_step eqf o ms) as [ms1 an]. cbn [fst snd] in *.
    destruct (IH (fun n => gs (S n)) w1 ms1 (N + 1) W1 ltac:(lia) ltac:(lia)) as (w2 & l & E2 & F2 & W2). rewrite E2. cbn [bind fst snd]. destruct (sspec_run eqf ops ms1) as [ms2 l2]. cbn [fst snd] in *.
    exists w2, (a :: l). split; auto. split; [now constructor|]. cbn [length]. replace (N + Z.of_nat (S (length ops))) with (N + 1 + Z.of_nat (length ops)) by lia. auto.
Qed.
Lemma wok_init : wok (mkW [] []) [] 0.
Proof. exists (fun _ => []). constructor; auto; [intros [|i] t m E; discriminate|intros m []]. Qed.
End P.
