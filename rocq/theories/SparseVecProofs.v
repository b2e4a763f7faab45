(** Sparse vectors: leaves as finite maps from indices, for any element type whose
    accessors satisfy [desc_ok]. *)
From Coq Require Import ZArith List Bool Arith Lia Permutation.
From Verif Require Import Outcome BitsModel BitsSpec BitsProofs BitsProofs3 SparseModel SparseNode SparseTrie SparseTrie2 SparseTrie3 HashSpec HashProofs2 SparseSpec SparseMap SparseVec SparseTabProofs.
Import ListNotations.
Local Open Scope Z_scope.
Ltac Zify.zify_post_hook ::= idtac.

(** ** maps with integer keys *)
Section ZMap.
Context {V : Type}.
Notation look := (flookup Z.eqb).
Implicit Types (m : fmap Z V).
Lemma eqZ_ok : key_ok (fun k : Z => k mod 2 ^ 64) Z.eqb.
Proof.
  constructor; intros.
  - apply Z.eqb_refl. - apply Z.eqb_sym. - apply Z.eqb_eq in H, H0. apply Z.eqb_eq. congruence. - apply Z.eqb_eq in H. now subst. - apply Z.mod_pos_bound. reflexivity.
Qed.
Lemma look_cons : forall k (e : Z * V) m, look k (e :: m) = if k =? fst e then Some (snd e) else look k m.
Proof. intros. apply (flookup_cons Z.eqb). Qed.
Lemma look_in : forall m k v, distinct Z.eqb m -> (look k m = Some v <-> In (k, v) m).
Proof.
  induction m as [|[k0 v0] m IH]; intros k v D. { split; [discriminate|intros []]. } destruct D as (F & D). rewrite look_cons. cbn [fst snd]. destruct (Z.eqb_spec k k0) as [->|Nk].
  - split; [intros [= <-]; now left|]. intros [[= ->]|Hi]; auto. rewrite Forall_forall in F. specialize (F _ Hi). cbn in F. rewrite Z.eqb_refl in F. discriminate.
  - rewrite (IH k v D). split; [now right|]. intros [[= <- <-]|Hi]; [contradiction|auto].
Qed.
Lemma distinct_nodup : forall m, distinct Z.eqb m -> NoDup m.
Proof. induction m as [|e m IH]; intros D; constructor; destruct D as (F & D); auto. intros Hi. rewrite Forall_forall in F. specialize (F _ Hi). rewrite Z.eqb_refl in F. discriminate. Qed.
Lemma map_ext_perm : forall m m', distinct Z.eqb m -> distinct Z.eqb m' -> (forall k, look k m = look k m') -> Permutation m m'.
Proof.
  intros m m' D D' H. apply NoDup_Permutation; try now apply distinct_nodup. intros [k v]. rewrite <- !look_in by auto. now rewrite H.
Qed.
Lemma look_put : forall m k v j, look j (fput Z.eqb k v m) = if j =? k then Some v else look j m.
Proof.
  intros m k v j. destruct (look k m) eqn:E.
  - rewrite fput_hit by congruence. induction m as [|e m IH]; [discriminate|]. cbn [frep map]. rewrite look_cons in E. rewrite !look_cons. destruct (Z.eqb_spec k (fst e)) as [Ek|Nk]; cbn [fst snd].
    + rewrite Ek. destruct (Z.eqb_spec j (fst e)) as [Ej|Nj]; auto. rewrite <- Ek. clear IH E. induction m as [|e' m IH]; [reflexivity|]. cbn [frep map]. rewrite !look_cons. destruct (Z.eqb_spec k (fst e')) as [Ek'|Nk']; cbn [fst snd].
      * destruct (Z.eqb_spec j (fst e')); [congruence|]. exact IH.
      * destruct (j =? fst e'); auto.
    + destruct (Z.eqb_spec j (fst e)) as [Ej|Nj]; [destruct (Z.eqb_spec j k); [congruence|auto]|]. apply IH. exact E.
  - rewrite fput_none by auto. now rewrite look_cons.
Qed.
Lemma look_remove : forall m k j, look j (fremove Z.eqb k m) = if j =? k then None else look j m.
Proof.
  intros m k j. induction m as [|e m IH]; [now destruct (j =? k)|]. unfold fremove in *. cbn [filter]. destruct (Z.eqb_spec k (fst e)) as [Ek|Nk]; cbn [negb].
  - rewrite IH, look_cons. destruct (Z.eqb_spec j k); auto. destruct (Z.eqb_spec j (fst e)); [congruence|auto].
  - rewrite !look_cons, IH. destruct (Z.eqb_spec j (fst e)); auto. destruct (Z.eqb_spec j k); [congruence|auto].
Qed.
End ZMap.

(** ** what a descriptor must do *)
Section Desc.
Context {V : Type} (D : vdesc V) (conv : V -> option V) (sl : leaf (vbody V) -> nat -> option V) (vlok : leaf (vbody V) -> Prop).
Notation vleaf := (leaf (vbody V)).
Notation s := (d_shift D).
Definition off (k : Z) : nat := Z.to_nat (k mod 2 ^ Z.of_nat s).
Definition slots (l : vleaf) (n : nat) : list (nat * V) := flat_map (fun j => match sl l j with Some v => [(j, v)] | None => [] end) (seq n (2 ^ s - n)).
Record desc_ok : Prop := {
  do_shift : (s < 64)%nat;
  do_ref : forall l k, vlok l -> in_range k = true -> d_ref D l k = Ok (sl l (off k));
  do_set : forall l k v, vlok l -> in_range k = true -> match conv v with
    | None => d_set D l k v = Err
    | Some c => exists l', d_set D l k v = Ok (l', negb (bound (sl l (off k)))) /\ leaf_key l' = leaf_key l /\ vlok l' /\ forall i, (i < 2 ^ s)%nat -> sl l' i = if (i =? off k)%nat then Some c else sl l i end;
  do_alloc : forall g0 g1 key, vlok (leaf_key_set (d_alloc D g0 g1) key) /\ forall i, (i < 2 ^ s)%nat -> sl (leaf_key_set (d_alloc D g0 g1) key) i = None;
  do_delete : forall l k, vlok l -> in_range k = true -> exists l', d_delete D l k = Ok (l', sl l (off k)) /\ leaf_key l' = leaf_key l /\ vlok l' /\ forall i, (i < 2 ^ s)%nat -> sl l' i = if (i =? off k)%nat then None else sl l i;
  do_clear : forall l, leaf_key (d_clear D l) = leaf_key l;
  do_copy : forall l, leaf_key (d_copy D l) = leaf_key l /\ (vlok l -> vlok (d_copy D l) /\ forall i, sl (d_copy D l) i = sl l i);
  do_iter : forall l n, vlok l -> (n <= 2 ^ s)%nat -> exists j, d_iter D l (Z.of_nat n - 1) = Ok (j, option_map snd (hd_error (slots l n))) /\ forall p, hd_error (slots l n) = Some p -> j = Z.of_nat (fst p) }.

Lemma slots_S : forall l n, (n < 2 ^ s)%nat -> slots l n = match sl l n with Some v => (n, v) :: slots l (S n) | None => slots l (S n) end.
Proof. intros l n H. unfold slots. replace (2 ^ s - n)%nat with (S (2 ^ s - S n)) by lia. cbn [seq flat_map]. now destruct (sl l n). Qed.
Lemma slots_end : forall l, slots l (2 ^ s) = []. Proof. intros l. unfold slots. now rewrite Nat.sub_diag. Qed.
Lemma slots_in : forall l n j v, In (j, v) (slots l n) <-> (n <= j < 2 ^ s)%nat /\ sl l j = Some v.
Proof.
  intros l n j v. unfold slots. rewrite in_flat_map. split.
  - intros (i & Hi & H). apply in_seq in Hi. destruct (sl l i) as [x|] eqn:E; [|destruct H]. destruct H as [[= <- <-]|[]]. split; [lia|auto].
  - intros (Hj & E). exists j. rewrite E. split; [apply in_seq; lia|now left].
Qed.
Lemma slots_cons : forall l n p r, slots l n = p :: r -> (n <= 2 ^ s)%nat -> (fst p < 2 ^ s)%nat /\ (n <= fst p)%nat /\ sl l (fst p) = Some (snd p) /\ r = slots l (S (fst p)).
Proof.
  intros l n p r E Hn. remember (2 ^ s - n)%nat as c. revert n Heqc Hn E. induction c as [|c IH]; intros n Hc Hn E. { replace n with (2 ^ s)%nat in E by lia. rewrite slots_end in E. discriminate. }
  rewrite slots_S in E by lia. destruct (sl l n) as [v|] eqn:Ev.
  - injection E as <- <-. cbn [fst snd]. split; [lia|]. split; [lia|]. split; auto.
  - destruct (IH (S n) ltac:(lia) ltac:(lia) E) as (A & B & C). split; auto. split; [lia|auto].
Qed.
Lemma slots_keys : forall l n, NoDup (map fst (slots l n)).
Proof.
  intros l n. unfold slots. generalize (seq_NoDup (2 ^ s - n) n). generalize (seq n (2 ^ s - n)). induction l0 as [|j js IH]; intros N; [constructor|]. inversion_clear N. cbn [flat_map]. rewrite map_app.
  assert (X : forall i, In i (map fst (flat_map (fun j => match sl l j with Some v => [(j, v)] | None => [] end) js)) -> In i js).
  { intros i Hi. apply in_map_iff in Hi. destruct Hi as ((i' & v) & <- & Hi). apply in_flat_map in Hi. destruct Hi as (x & Hx & Hi). destruct (sl l x); [|destruct Hi]. destruct Hi as [[= <- <-]|[]]. auto. }
  destruct (sl l j); cbn [map app]; auto. constructor; auto.
Qed.
Lemma slots_len : forall l n, (length (slots l n) <= 2 ^ s - n)%nat.
Proof.
  intros l n. unfold slots. rewrite <- (seq_length (2 ^ s - n) n) at 2. generalize (seq n (2 ^ s - n)). induction l0 as [|j js IH]; [auto|]. cbn [flat_map length]. rewrite app_length. destruct (sl l j); cbn [length]; lia.
Qed.

(** *** the entries of a leaf *)
Definition vents (l : vleaf) : list (Z * V) := map (fun p => (leaf_key l * 2 ^ Z.of_nat s + Z.of_nat (fst p), snd p)) (slots l 0).
Definition vok (l : vleaf) : Prop := vlok l /\ leaf_key l < 2 ^ (64 - Z.of_nat s).
Definition vhash (k : Z) : Z := (k mod 2 ^ 64) / 2 ^ Z.of_nat s.
Hypothesis DO : desc_ok.
Lemma pow_s : 0 < 2 ^ Z.of_nat s. Proof. apply Z.pow_pos_nonneg; lia. Qed.
Lemma pow_nat : Z.of_nat (2 ^ s) = 2 ^ Z.of_nat s. Proof. rewrite Nat2Z.inj_pow. reflexivity. Qed.
Lemma pow_64 : 2 ^ 64 = 2 ^ Z.of_nat s * 2 ^ (64 - Z.of_nat s). Proof. pose proof (do_shift DO). rewrite <- Z.pow_add_r by lia. f_equal. lia. Qed.
Lemma off_lt : forall k, (off k < 2 ^ s)%nat.
Proof. intros k. unfold off. pose proof (Z.mod_pos_bound k _ pow_s). pose proof pow_nat. lia. Qed.
Lemma range_prop : forall k, in_range k = true <-> 0 <= k < 2 ^ 64.
Proof. intros k. unfold in_range. rewrite andb_true_iff, Z.leb_le, Z.ltb_lt. tauto. Qed.
Lemma vhash_range : forall k, 0 <= vhash k < 2 ^ (64 - Z.of_nat s).
Proof.
  intros k. unfold vhash. pose proof (Z.mod_pos_bound k (2 ^ 64) eq_refl) as B. split; [apply Z.div_pos; [lia|apply pow_s]|]. apply Z.div_lt_upper_bound; [apply pow_s|]. rewrite <- pow_64. lia.
Qed.
Lemma vhash_u64 : forall k, u64 (vhash k).
Proof. intros k. pose proof (vhash_range k). unfold u64. pose proof pow_64 as P. pose proof pow_s. split; [lia|]. rewrite P. nia. Qed.
Lemma vhash_ok : key_ok vhash Z.eqb.
Proof.
  constructor; intros.
  - apply Z.eqb_refl. - apply Z.eqb_sym. - apply Z.eqb_eq in H, H0. apply Z.eqb_eq. congruence. - apply Z.eqb_eq in H. now subst. - apply vhash_u64.
Qed.
Lemma leafno_ok : forall k, in_range k = true -> leafno D k = vhash k.
Proof. intros k H. apply range_prop in H. unfold leafno, vhash. rewrite Z.shiftr_div_pow2 by lia. now rewrite Z.mod_small by lia. Qed.
Lemma leaf_key_pos : forall l : vleaf, 0 <= leaf_key l. Proof. intros l. unfold leaf_key. apply Z.mod_pos_bound. reflexivity. Qed.
Lemma vkey_ok : forall l i, vok l -> (i < 2 ^ s)%nat -> let k := leaf_key l * 2 ^ Z.of_nat s + Z.of_nat i in in_range k = true /\ vhash k = leaf_key l /\ off k = i.
Proof.
  intros l i (_ & Kb) Hi k. pose proof (leaf_key_pos l) as Kp. pose proof pow_s as Ps. pose proof pow_64 as P64. pose proof pow_nat as Pn. assert (Hi' : Z.of_nat i < 2 ^ Z.of_nat s) by lia.
  assert (R : 0 <= k < 2 ^ 64) by (unfold k; rewrite P64; nia). split; [now apply range_prop|]. split.
  - unfold vhash. rewrite Z.mod_small by lia. unfold k. rewrite Z.div_add_l by lia. rewrite Z.div_small by lia. lia.
  - unfold off, k. rewrite Z.add_comm, Z.mod_add by lia. rewrite Z.mod_small by lia. lia.
Qed.
Lemma vents_in : forall l k v, vok l -> (In (k, v) (vents l) <-> in_range k = true /\ vhash k = leaf_key l /\ sl l (off k) = Some v).
Proof.
  intros l k v O. unfold vents. rewrite in_map_iff. split.
  - intros ((j & x) & E & Hi). cbn [fst snd] in E. injection E as <- <-. apply slots_in in Hi. destruct Hi as (Hj & Hv). destruct (vkey_ok l j O ltac:(lia)) as (A & B & C). split; auto. split; auto. now rewrite C.
  - intros (R & Hh & Hv). exists (off k, v). cbn [fst snd]. split.
    + f_equal. rewrite <- Hh. apply range_prop in R. unfold vhash, off. rewrite (Z.mod_small k (2 ^ 64)) by lia. pose proof pow_s. pose proof (Z.mod_pos_bound k _ pow_s). rewrite Z2Nat.id by lia. rewrite (Z.div_mod k (2 ^ Z.of_nat s)) at 3 by lia. lia.
    + apply slots_in. split; [|auto]. pose proof (off_lt k). lia.
Qed.
Lemma vents_dist : forall l, vok l -> distinct Z.eqb (vents l).
Proof.
  intros l O. unfold vents. pose proof (slots_keys l 0) as N. induction (slots l 0) as [|[j v] r IH]; [exact Logic.I|]. cbn [map fst] in *. inversion_clear N. split; auto. apply Forall_forall. intros e He. apply in_map_iff in He. destruct He as ((j' & v') & <- & Hi). cbn [fst].
  apply Z.eqb_neq. intros E. apply H. replace j with j' by lia. change j' with (fst (j', v')). now apply in_map.
Qed.
Lemma VH : forall l, vok l -> forall e, In e (vents l) -> vhash (fst e) = leaf_key l. Proof. intros l O [k v] Hi. apply vents_in in Hi; tauto. Qed.
Lemma vents_look : forall l k, vok l -> vhash k = leaf_key l -> in_range k = true -> flookup Z.eqb k (vents l) = sl l (off k).
Proof.
  intros l k O Hh R. pose proof (vents_dist l O) as Di. destruct (flookup Z.eqb k (vents l)) as [v|] eqn:E.
  - apply look_in in E; auto. apply vents_in in E; auto. symmetry. tauto.
  - destruct (sl l (off k)) as [v|] eqn:Ev; auto. assert (In (k, v) (vents l)) by (apply vents_in; auto). apply look_in in H; auto. congruence.
Qed.
Lemma vents_look_out : forall l k, vok l -> vhash k <> leaf_key l \/ in_range k = false -> flookup Z.eqb k (vents l) = None.
Proof.
  intros l k O H. destruct (flookup Z.eqb k (vents l)) as [v|] eqn:E; auto. apply look_in in E; [|now apply vents_dist]. apply vents_in in E; auto. destruct E as (R & Hh & _). destruct H; [contradiction|congruence].
Qed.
Lemma vents_look_all : forall l k, vok l -> flookup Z.eqb k (vents l) = if in_range k && (vhash k =? leaf_key l) then sl l (off k) else None.
Proof.
  intros l k O. destruct (in_range k) eqn:R; cbn [andb]; [|apply vents_look_out; auto]. destruct (Z.eqb_spec (vhash k) (leaf_key l)); [now apply vents_look|apply vents_look_out; auto].
Qed.
Lemma off_eq : forall j k, in_range j = true -> in_range k = true -> vhash j = vhash k -> (off j =? off k)%nat = (j =? k).
Proof.
  intros j k Rj Rk H. apply range_prop in Rj, Rk. unfold vhash in H. rewrite !Z.mod_small in H by lia. unfold off. pose proof pow_s as Ps. pose proof (Z.mod_pos_bound j _ Ps). pose proof (Z.mod_pos_bound k _ Ps).
  destruct (Z.eqb_spec j k) as [->|N]; [apply Nat.eqb_refl|]. apply Nat.eqb_neq. intros E. apply N. rewrite (Z.div_mod j (2 ^ Z.of_nat s)), (Z.div_mod k (2 ^ Z.of_nat s)) by lia. rewrite H. f_equal. lia.
Qed.
(** a leaf whose slot [k] has changed *)
Lemma vents_put : forall l l' k c, vok l -> leaf_key l' = leaf_key l -> vlok l' -> vhash k = leaf_key l -> in_range k = true -> (forall i, (i < 2 ^ s)%nat -> sl l' i = if (i =? off k)%nat then Some c else sl l i) ->
  vok l' /\ Permutation (vents l') (fput Z.eqb k c (vents l)).
Proof.
  intros l l' k c O Kl O' Hh R Hs. assert (Ok : vok l') by (split; auto; rewrite Kl; apply O). split; auto. apply map_ext_perm.
  - now apply vents_dist.
  - apply (distinct_fput Z.eqb). now apply vents_dist.
  - intros j. rewrite look_put, !vents_look_all by auto. rewrite Kl. destruct (Z.eqb_spec j k) as [->|N].
    + rewrite R, Hh, Z.eqb_refl. cbn [andb]. rewrite Hs by apply off_lt. now rewrite Nat.eqb_refl.
    + destruct (in_range j) eqn:Rj; cbn [andb]; auto. destruct (Z.eqb_spec (vhash j) (leaf_key l)) as [E|]; auto. rewrite Hs by apply off_lt. rewrite off_eq by (auto; congruence). destruct (Z.eqb_spec j k); [contradiction|auto].
Qed.
Lemma vents_remove : forall l l' k, vok l -> leaf_key l' = leaf_key l -> vlok l' -> vhash k = leaf_key l -> in_range k = true -> (forall i, (i < 2 ^ s)%nat -> sl l' i = if (i =? off k)%nat then None else sl l i) ->
  vok l' /\ Permutation (vents l') (fremove Z.eqb k (vents l)).
Proof.
  intros l l' k O Kl O' Hh R Hs. assert (Ok : vok l') by (split; auto; rewrite Kl; apply O). split; auto. apply map_ext_perm.
  - now apply vents_dist.
  - apply (distinct_fremove Z.eqb). now apply vents_dist.
  - intros j. rewrite look_remove, !vents_look_all by auto. rewrite Kl. destruct (Z.eqb_spec j k) as [->|N].
    + rewrite R, Hh, Z.eqb_refl. cbn [andb]. rewrite Hs by apply off_lt. now rewrite Nat.eqb_refl.
    + destruct (in_range j) eqn:Rj; cbn [andb]; auto. destruct (Z.eqb_spec (vhash j) (leaf_key l)) as [E|]; auto. rewrite Hs by apply off_lt. rewrite off_eq by (auto; congruence). destruct (Z.eqb_spec j k); [contradiction|auto].
Qed.
Lemma vents_fresh : forall g0 g1 key, u64 key -> key < 2 ^ (64 - Z.of_nat s) -> vok (leaf_key_set (d_alloc D g0 g1) key) /\ vents (leaf_key_set (d_alloc D g0 g1) key) = [].
Proof.
  intros g0 g1 key U Kb. destruct (do_alloc DO g0 g1 key) as (O & Z0). split; [split; auto; rewrite leaf_key_set_ok; auto|]. unfold vents. replace (slots _ 0) with (@nil (nat * V)); auto. symmetry. unfold slots.
  assert (X : forall js l, (forall j, In j js -> sl l j = None) -> flat_map (fun j => match sl l j with Some v => [(j, v)] | None => [] end) js = []). { induction js as [|j js IH]; intros l H; [reflexivity|]. cbn [flat_map]. rewrite H by now left. apply IH. intros i Hi. apply H. now right. }
  apply X. intros j Hj. apply in_seq in Hj. apply Z0. lia.
Qed.
Lemma vcopy_ok : forall l, vok l -> vok (d_copy D l) /\ vents (d_copy D l) = vents l.
Proof.
  intros l (O & Kb). destruct (do_copy DO l) as (Kl & X). destruct (X O) as (O' & Hs). split; [split; auto; now rewrite Kl|]. unfold vents. rewrite Kl. f_equal. unfold slots. apply flat_map_ext. intros j. now rewrite Hs.
Qed.
End Desc.
