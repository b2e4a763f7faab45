(** The descriptors of general and uniform sparse vectors meet [desc_ok]. *)
From Coq Require Import ZArith List Bool Arith Lia.
From Verif Require Import Outcome BitsModel BitsSpec BitsProofs BitsProofs3 SparseModel SparseNode SparseTrie SparseTrie2 HashSpec SparseSpec SparseVec SparseTabProofs SparseVecProofs.
Import ListNotations.
Local Open Scope Z_scope.
Ltac Zify.zify_post_hook ::= idtac.

Section G.
Context {V : Type}.
Notation vleaf := (leaf (vbody V)).
Definition slot_val (x : slot V) : option V := match x with SObj v => Some v | _ => None end.
Definition g_sl (l : vleaf) (i : nat) : option V :=
  match body l, i with GBody v0 _, O => slot_val v0 | GBody _ v1, S O => slot_val v1 | _, _ => None end.
Definition g_ok (l : vleaf) : Prop := exists v0 v1, body l = GBody v0 v1 /\ v0 <> SNull /\ v1 <> SNull.
Lemma g_off : forall k, off (g_desc (V:=V)) k = if low_bit k then 1%nat else 0%nat.
Proof.
  intros k. unfold off, low_bit. cbn [g_desc d_shift]. change (Z.of_nat 1) with 1. change (2 ^ 1) with 2. replace (Z.land k 1) with (k mod 2) by (change 1 with (Z.ones 1); rewrite Z.land_ones by lia; reflexivity). pose proof (Z.mod_pos_bound k 2 eq_refl). assert (k mod 2 = 0 \/ k mod 2 = 1) as [->| ->] by lia; reflexivity.
Qed.
Lemma slot_obj_ok : forall x : slot V, x <> SNull -> slot_obj x = Ok (slot_val x). Proof. intros []; try reflexivity. intros H. now destruct H. Qed.
Lemma g_desc_ok : desc_ok (g_desc (V:=V)) Some g_sl g_ok.
Proof.
  assert (Hd : forall l, slots (g_desc (V:=V)) g_sl l 0 = (match g_sl l 0 with Some v => [(0%nat, v)] | None => [] end) ++ (match g_sl l 1 with Some v => [(1%nat, v)] | None => [] end)) by (intros l; unfold slots; cbn [g_desc d_shift Nat.pow Nat.mul Nat.add Nat.sub seq flat_map]; now rewrite app_nil_r).
  assert (Hd1 : forall l, slots (g_desc (V:=V)) g_sl l 1 = (match g_sl l 1 with Some v => [(1%nat, v)] | None => [] end)) by (intros l; unfold slots; cbn [g_desc d_shift Nat.pow Nat.mul Nat.add Nat.sub seq flat_map]; now rewrite app_nil_r).
  constructor.
  - cbn. lia.
  - intros l k (v0 & v1 & B & N0 & N1) _. cbn [g_desc d_ref]. unfold g_ref, g_val, g_sl. rewrite g_off, B. destruct (low_bit k); cbn [bind]; now apply slot_obj_ok.
  - intros l k v (v0 & v1 & B & N0 & N1) _. cbn [g_desc d_set]. unfold g_set, g_val, g_put, g_sl. rewrite g_off, B. cbn [bind]. eexists. split.
    { f_equal. f_equal. destruct (low_bit k); [destruct v1|destruct v0]; try reflexivity; contradiction. }
    split; [reflexivity|]. split. { destruct (low_bit k); unfold g_ok; cbn [set_body body]; eexists _, _; split; try reflexivity; split; auto; discriminate. }
    intros i Hi. change (2 ^ 1)%nat with 2%nat in Hi. unfold set_body. cbn [body]. destruct (low_bit k); destruct i as [|[|]]; cbn; try reflexivity; try lia.
  - intros g0 g1 key. split; [exists SUnb, SUnb; split; [reflexivity|]; split; discriminate|]. intros i Hi. change (2 ^ d_shift g_desc)%nat with 2%nat in Hi. destruct i as [|[|]]; reflexivity || lia.
  - intros l k (v0 & v1 & B & N0 & N1) _. cbn [g_desc d_delete]. unfold g_delete, g_val, g_put, g_sl. rewrite g_off, B. cbn [bind]. rewrite slot_obj_ok by (destruct (low_bit k); auto). cbn [bind]. eexists. split.
    { f_equal. f_equal. now destruct (low_bit k). }
    split; [reflexivity|]. split. { destruct (low_bit k); unfold g_ok; cbn [set_body body]; eexists _, _; split; try reflexivity; split; auto; discriminate. }
    intros i Hi. change (2 ^ 1)%nat with 2%nat in Hi. unfold set_body. cbn [body]. destruct (low_bit k); destruct i as [|[|]]; cbn; try reflexivity; try lia.
  - reflexivity.
  - intros l. split; [reflexivity|]. intros (v0 & v1 & B & N0 & N1). split; [exists v0, v1; auto|reflexivity].
  - intros l n (v0 & v1 & B & N0 & N1) Hn. change (2 ^ d_shift g_desc)%nat with 2%nat in Hn. cbn [g_desc d_iter]. unfold g_iter. replace (Z.of_nat n - 1 + 1) with (Z.of_nat n) by lia.
    assert (G0 : g_val l false = Ok v0) by (unfold g_val; now rewrite B). assert (G1 : g_val l true = Ok v1) by (unfold g_val; now rewrite B).
    assert (S0 : g_sl l 0 = slot_val v0) by (unfold g_sl; now rewrite B). assert (S1 : g_sl l 1 = slot_val v1) by (unfold g_sl; now rewrite B).
    rewrite G0, G1. destruct n as [|[|[|]]]; [| | |lia].
    + rewrite Hd, S0, S1. cbn [Z.of_nat Z.eqb bind]. destruct v0 as [| |v0]; [|contradiction|].
      * cbn [bind fst snd]. cbn. destruct v1 as [| |v1]; [|contradiction|]; cbn; eexists; (split; [reflexivity|]); intros p; [discriminate|]. intros [= <-]. reflexivity.
      * cbn. eexists. split; [reflexivity|]. intros p [= <-]. reflexivity.
    + rewrite Hd1, S1. cbn. destruct v1 as [| |v1]; [|contradiction|]; cbn; eexists; (split; [reflexivity|]); intros p; [discriminate|]. intros [= <-]. reflexivity.
    + exists 2. split; [reflexivity|]. intros p. discriminate.
Qed.
End G.

Section U.
Context {V : Type} (conv : V -> option V) (zero : V) (shift : nat) (Hs : (shift <= 4)%nat).
Notation vleaf := (leaf (vbody V)).
Notation D := (u_desc conv zero shift).
Definition u_sl (l : vleaf) (i : nat) : option V :=
  if tb (key0 l) (i + 32) then match body l with UBody c => nth_error c i | _ => None end else None.
Definition u_ok (l : vleaf) : Prop := word (key0 l) /\ exists c, body l = UBody c /\ length c = (2 ^ shift)%nat.
Lemma u_off : forall k, u_ind shift k = off D k.
Proof. intros k. unfold u_ind, off, u_mask. cbn [u_desc d_shift]. replace (2 ^ Z.of_nat shift - 1) with (Z.ones (Z.of_nat shift)) by (rewrite Z.ones_equiv; lia). now rewrite Z.land_ones by lia. Qed.
Lemma u_ind_lt : forall k, (u_ind shift k < 2 ^ shift)%nat.
Proof. intros k. rewrite u_off. apply (off_lt D). Qed.
Lemma pow16 : (2 ^ shift <= 16)%nat. Proof. change 16%nat with (2 ^ 4)%nat. apply Nat.pow_le_mono_r; lia. Qed.
Lemma u_ind_nat : forall n, (n < 2 ^ shift)%nat -> u_ind shift (Z.of_nat n) = n.
Proof. intros n H. rewrite u_off. unfold off. cbn [u_desc d_shift]. rewrite Z.mod_small; [lia|]. pose proof (Nat2Z.inj_pow 2 shift). change (Z.of_nat 2) with 2 in H0. lia. Qed.
Lemma u_desc_ok : desc_ok D conv u_sl u_ok.
Proof.
  pose proof pow16 as P16.
  assert (Ref : forall l k, u_ok l -> u_ref shift l k = Ok (u_sl l (u_ind shift k))).
  { intros l k (W & c & B & Lc). unfold u_ref, u_has_entry, leaf_data_bit_test, u_sl, u_cells. rewrite test_tb by (auto; pose proof (u_ind_lt k); lia). rewrite B. destruct (tb _ _); auto. cbn [bind]. destruct (nth_error c (u_ind shift k)) as [v|] eqn:E; [now rewrite (aget_ok _ _ _ _ E)|]. apply nth_error_None in E. pose proof (u_ind_lt k). lia. }
  constructor.
  - cbn. lia.
  - intros l k O _. cbn [u_desc d_ref]. rewrite <- u_off. now apply Ref.
  - intros l k v O _. pose proof (u_ind_lt k) as Hk. cbn [u_desc d_set d_shift]. unfold u_set. destruct (conv v) as [c|]; [|reflexivity]. rewrite <- u_off. destruct O as (W & cs & B & Lc). unfold u_cells. rewrite B. cbn [bind].
    destruct (aset_ok _ cs (u_ind shift k) c ltac:(lia)) as (c1 & -> & L1 & N1). cbn [bind]. eexists. split.
    { f_equal. f_equal. unfold u_has_entry, leaf_data_bit_test, u_sl. cbn [set_body key0]. rewrite B. rewrite test_tb by (auto; pose proof (u_ind_lt k); lia). destruct (tb _ _); auto. destruct (nth_error cs (u_ind shift k)) eqn:E; auto. apply nth_error_None in E. lia. }
    split; [unfold u_set_entry; rewrite bit_set_key; reflexivity|]. split. { split; [unfold u_set_entry; cbn [leaf_data_bit_set set_body key0]; apply word_set; auto; lia|]. exists c1. split; [reflexivity|lia]. }
    intros i Hi. unfold u_sl, u_set_entry. cbn [leaf_data_bit_set set_body key0 body]. rewrite tb_set, N1, B. destruct (Nat.eqb_spec i (u_ind shift k)) as [->|Ni].
    + now rewrite Nat.eqb_refl.
    + destruct (Nat.eqb_spec (i + 32) (u_ind shift k + 32)); [lia|]. reflexivity.
  - intros g0 g1 key. split. { split; [apply key_set_word|]. eexists. split; [reflexivity|]. apply repeat_length. } intros i Hi. unfold u_sl. now rewrite key_set_data.
  - intros l k O _. pose proof (u_ind_lt k) as Hk. cbn [u_desc d_delete d_shift]. unfold u_delete. rewrite Ref by auto. cbn [bind]. rewrite <- u_off. destruct O as (W & cs & B & Lc). destruct (u_sl l (u_ind shift k)) as [v|] eqn:E.
    + eexists. split; [reflexivity|]. split; [apply bit_reset_key|]. split. { split; [apply word_reset; auto; lia|]. exists cs. auto. }
      intros i Hi. unfold u_sl, u_reset_entry. cbn [leaf_data_bit_reset key0 body]. rewrite tb_reset by lia. destruct (Nat.eqb_spec i (u_ind shift k)) as [->|Ni]; [now rewrite Nat.eqb_refl|]. destruct (Nat.eqb_spec (i + 32) (u_ind shift k + 32)); [lia|]. reflexivity.
    + eexists. split; [reflexivity|]. split; [reflexivity|]. split; [split; eauto|]. intros i Hi. destruct (Nat.eqb_spec i (u_ind shift k)) as [->|Ni]; auto.
  - reflexivity.
  - intros l. split; [reflexivity|]. intros O. split; [exact O|reflexivity].
  - intros l n O Hn. cbn [u_desc d_iter d_shift] in *. unfold u_iter. replace (Z.of_nat n - 1 + 1) with (Z.of_nat n) by lia. pose proof (Nat2Z.inj_pow 2 shift) as Pw. change (Z.of_nat 2) with 2 in Pw. unfold u_mask. replace (Z.to_nat (2 ^ Z.of_nat shift - 1 - (Z.of_nat n - 1))) with (2 ^ shift - n)%nat by lia.
    remember (2 ^ shift - n)%nat as c eqn:Ec. revert n Hn Ec. induction c as [|c IH]; intros n Hn Ec; cbn [u_iter_loop].
    + exists (Z.of_nat n). replace n with (2 ^ shift)%nat by lia. rewrite (slots_end D). split; [reflexivity|discriminate].
    + rewrite (slots_S D) by (cbn [u_desc d_shift]; lia). pose proof (Ref l (Z.of_nat n) O) as R. rewrite u_ind_nat in R by lia. unfold u_has_entry, leaf_data_bit_test. rewrite u_ind_nat by lia. rewrite test_tb by (apply O || lia). destruct (tb (key0 l) (n + 32)) eqn:T.
      * rewrite R. cbn [bind]. exists (Z.of_nat n). destruct (u_sl l n) as [v|] eqn:Ev; [cbn; split; [reflexivity|intros p [= <-]; reflexivity]|]. exfalso. unfold u_sl in Ev. rewrite T in Ev. destruct O as (W & cs & B & Lc). rewrite B in Ev. apply nth_error_None in Ev. lia.
      * assert (Ev : u_sl l n = None) by (unfold u_sl; now rewrite T). rewrite Ev. destruct (IH (S n) ltac:(lia) ltac:(lia)) as (j & E & Hj). exists j. replace (Z.of_nat n + 1) with (Z.of_nat (S n)) by lia. auto.
Qed.
End U.
