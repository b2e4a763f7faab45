(** C06: a hash table behaves as a finite map, for every history of operations. *)
From Coq Require Import List Bool ZArith Lia Permutation.
From Verif Require Import Outcome HashModel HashSpec HashApi HashProofs HashProofs2.
Import ListNotations.
Local Open Scope Z_scope.

(** For every hash function and equivalence that fit together, every initial size
    from 0 to 2^30 and every history of fewer than INT_MAX operations, no operation
    fails, the answers are those of the association-list specification (listings up
    to order), and the final contents are a permutation of the specified contents
    with pairwise different keys. *)
Theorem hash_table_refines_map : forall (K V : Type) (hashfn : K -> Z) (eqf : K -> K -> bool),
  key_ok hashfn eqf ->
  forall (initSize : Z) (ops : list (hop K V)), 0 <= initSize <= 2 ^ 30 -> Z.of_nat (length ops) <= INT_MAX ->
  exists t0 t answers, hash_core_init initSize = Ok t0
    /\ hash_run hashfn eqf ops t0 = Ok (t, answers)
    /\ Forall2 ans_same answers (snd (hspec_run eqf ops []))
    /\ (exists l, hash_step hashfn eqf HEntries t = Ok (t, HList l)
          /\ Permutation l (fst (hspec_run eqf ops [])) /\ distinct eqf l)
    /\ num_entries t = Z.of_nat (length (fst (hspec_run eqf ops []))).
Proof.
  intros K V hashfn eqf KO n ops Hn Hl.
  destruct (init_ok (K:=K) (V:=V) hashfn eqf n Hn) as (t0 & H0 & G0 & A0 & N0).
  destruct (run_ok hashfn eqf KO ops t0 [] G0) as (t & l & H1 & G1 & P1 & F1).
  { rewrite A0. constructor. } { lia. }
  exists t0, t, l. split; [exact H0|]. split; [exact H1|]. split; [exact F1|]. split.
  - exists (habs t). split; [|split; [exact P1|now apply habs_dist with (hashfn := hashfn)]].
    cbn [hash_step]. destruct G1 as [I F].
    destruct (sweep_ok hashfn eqf KO (fun _ => false) (S (Z.to_nat (num_entries t))) t (hash_iter_init t) [] (concat (buckets t)) I (iter_init_ok t) eq_refl) as (t' & H2 & _ & _).
    { rewrite (hi_num _ _ _ I), Nat2Z.id. lia. }
    assert (Et : t' = t).
    { clear - H2. revert H2. generalize (S (Z.to_nat (num_entries t))), (hash_iter_init t), (concat (buckets t)).
      induction n as [|n IH]; intros it c H; [discriminate|]. cbn [hash_sweep] in H.
      destruct (hash_iter_next t it) as [[it' [e|]]| | |]; cbn [bind fst snd] in H; try discriminate; [|congruence].
      destruct (hash_sweep hashfn eqf n (fun _ => false) t it') as [[t2 c2]| | |] eqn:E; cbn [bind fst snd] in H; try discriminate.
      injection H as <- <-. eapply IH; eauto. }
    rewrite H2. cbn [bind fst snd]. rewrite entry_pairs_ok by exact F. cbn [bind]. now rewrite Et.
  - rewrite (good_count _ _ _ G1). now rewrite (Permutation_length P1).
Qed.

(** Copies share no entry with the original, so storing through one is not seen in
    the other. *)
Theorem hash_table_copy_disjoint : forall (K V : Type) (hashfn : K -> Z) (eqf : K -> K -> bool),
  key_ok hashfn eqf ->
  forall (initSize : Z) (ops : list (hop K V)) t0 t answers, 0 <= initSize <= 2 ^ 30 -> Z.of_nat (length ops) <= INT_MAX ->
  hash_core_init initSize = Ok t0 -> hash_run hashfn eqf ops t0 = Ok (t, answers) ->
  forall e e', In e (concat (buckets (hash_core_copy t))) -> In e' (concat (buckets t)) -> eid e <> eid e'.
Proof.
  intros K V hashfn eqf KO n ops t0 t answers Hn Hl H0 H1.
  destruct (init_ok (K:=K) (V:=V) hashfn eqf n Hn) as (t0' & H0' & G0 & A0 & N0).
  rewrite H0 in H0'. injection H0' as <-.
  destruct (run_ok hashfn eqf KO ops t0 [] G0) as (t' & l & H1' & G1 & _). { rewrite A0; constructor. } { lia. }
  rewrite H1 in H1'. injection H1' as <- <-. destruct G1 as [I _].
  apply (copy_ok hashfn eqf t I).
Qed.

(** After any history the number of buckets is a power of two up to 2^30 and
    every entry sits in the bucket selected by the hash of its key. *)
Theorem hash_table_entries_placed : forall (K V : Type) (hashfn : K -> Z) (eqf : K -> K -> bool),
  key_ok hashfn eqf ->
  forall (initSize : Z) (ops : list (hop K V)) t0 t answers, 0 <= initSize <= 2 ^ 30 -> Z.of_nat (length ops) <= INT_MAX ->
  hash_core_init initSize = Ok t0 -> hash_run hashfn eqf ops t0 = Ok (t, answers) ->
  Z.of_nat (length (buckets t)) = num_buckets t /\ (exists j, 0 <= j <= 30 /\ num_buckets t = 2 ^ j) /\
  forall i c e, nth_error (buckets t) i = Some c -> In e c ->
    ehash e = hashfn (ekey e) /\ hash2index (num_buckets t) (num_log2 t) (hashfn (ekey e)) = Z.of_nat i.
Proof.
  intros K V hashfn eqf KO n ops t0 t answers Hn Hl H0 H1.
  destruct (init_ok (K:=K) (V:=V) hashfn eqf n Hn) as (t0' & H0' & G0 & A0 & N0).
  rewrite H0 in H0'. injection H0' as <-.
  destruct (run_ok hashfn eqf KO ops t0 [] G0) as (t' & l & H1' & G1 & _). { rewrite A0; constructor. } { lia. }
  rewrite H1 in H1'. injection H1' as <- <-. destruct G1 as [I _].
  split; [apply I|]. split; [exists (num_log2 t); split; apply I|].
  intros i c e Hi He. pose proof (hi_hashed _ _ _ I) as X. unfold hashed in X. rewrite Forall_forall in X.
  assert (Ee : ehash e = hashfn (ekey e)) by (apply X, in_concat; exists c; split; auto; eapply nth_error_In; eauto).
  split; auto. rewrite <- Ee. eapply (hi_placed _ _ _ I); eauto.
Qed.

(** The iterator delivers every entry exactly once, bucket by bucket (the order that
    [insert_entry] uses for rehashing). *)
Theorem hash_iterator_visits_all : forall (K V : Type) (hashfn : K -> Z) (eqf : K -> K -> bool),
  key_ok hashfn eqf ->
  forall (initSize : Z) (ops : list (hop K V)) t0 t answers, 0 <= initSize <= 2 ^ 30 -> Z.of_nat (length ops) <= INT_MAX ->
  hash_core_init initSize = Ok t0 -> hash_run hashfn eqf ops t0 = Ok (t, answers) ->
  exists t', hash_sweep hashfn eqf (S (Z.to_nat (num_entries t))) (fun _ => false) t (hash_iter_init t) = Ok (t', concat (buckets t))
    /\ concat (buckets t') = concat (buckets t) /\ NoDup (map eid (concat (buckets t))).
Proof.
  intros K V hashfn eqf KO n ops t0 t answers Hn Hl H0 H1.
  destruct (init_ok (K:=K) (V:=V) hashfn eqf n Hn) as (t0' & H0' & G0 & A0 & N0).
  rewrite H0 in H0'. injection H0' as <-.
  destruct (run_ok hashfn eqf KO ops t0 [] G0) as (t' & l & H1' & G1 & _). { rewrite A0; constructor. } { lia. }
  rewrite H1 in H1'. injection H1' as <- <-. destruct G1 as [I _].
  destruct (sweep_ok hashfn eqf KO (fun _ => false) (S (Z.to_nat (num_entries t))) t (hash_iter_init t) [] (concat (buckets t)) I (iter_init_ok t) eq_refl) as (t' & H2 & _ & E2).
  { rewrite (hi_num _ _ _ I), Nat2Z.id. lia. }
  exists t'. split; [exact H2|]. split; [|apply I]. rewrite E2. cbn [app negb]. apply filter_id. apply Forall_forall; auto.
Qed.

(** The specification satisfies the map laws. *)
Theorem fspec_laws : forall (K V : Type) (hashfn : K -> Z) (eqf : K -> K -> bool), key_ok hashfn eqf ->
  forall (m : fmap K V) k k' v,
    flookup eqf k' (fput eqf k v m) = (if eqf k' k then Some v else flookup eqf k' m) /\
    flookup eqf k' (fremove eqf k m) = (if eqf k' k then None else flookup eqf k' m) /\
    flookup eqf k' (@nil (K * V)) = None.
Proof.
  intros K V hashfn eqf KO m k k' v.
  assert (Eqv : forall x, eqf k' k = true -> eqf k x = eqf k' x).
  { intros x H. destruct (eqf k x) eqn:E1, (eqf k' x) eqn:E2; auto.
    - rewrite (ko_trans _ _ KO k' k x) in E2; auto.
    - rewrite (ko_trans _ _ KO k k' x) in E1; auto. now rewrite (ko_sym _ _ KO). }
  assert (Neq : forall x, eqf k' k = false -> eqf k x = true -> eqf k' x = false).
  { intros x H H1. destruct (eqf k' x) eqn:E; auto. rewrite <- H. symmetry. eapply (ko_trans _ _ KO); [exact E|]. now rewrite (ko_sym _ _ KO). }
  split; [|split; [|reflexivity]].
  - unfold fput. destruct (flookup eqf k m) as [w|] eqn:E.
    + unfold flookup in *. revert E. induction m as [|x m IH]; intro E; [discriminate|]. cbn [map find] in *.
      destruct (eqf k (fst x)) eqn:E1; cbn [fst].
      * destruct (eqf k' k) eqn:Ek.
        { rewrite <- Eqv by auto. now rewrite E1. }
        { rewrite (Neq _ eq_refl E1). clear - Eqv Neq. induction m as [|y m IH]; auto. cbn [map find].
          destruct (eqf k (fst y)) eqn:E1; cbn [fst].
          - rewrite (Neq _ eq_refl E1). exact IH.
          - destruct (eqf k' (fst y)); auto. }
      * destruct (eqf k' k) eqn:Ek.
        { rewrite <- Eqv, E1 by auto. auto. }
        { destruct (eqf k' (fst x)); auto. }
    + unfold flookup. cbn [find fst]. destruct (eqf k' k); auto.
  - unfold fremove, flookup. induction m as [|x m IH]; cbn [filter find]; [now destruct (eqf k' k)|].
    destruct (eqf k (fst x)) eqn:E1; cbn [negb].
    + rewrite IH. destruct (eqf k' k) eqn:Ek; auto. now rewrite (Neq _ eq_refl E1).
    + cbn [find]. destruct (eqf k' k) eqn:Ek.
      * rewrite <- Eqv, E1 by auto. exact IH.
      * destruct (eqf k' (fst x)); auto.
Qed.

(** Not for every initial size: a negative size argument reaches the table as an
    unsigned 2^32 - 1 and the doubling loop aborts the process. *)
Theorem hash_table_negative_size_refuted : @hash_core_init Z Z (2 ^ 32 - 1) = Panic.
Proof. vm_compute. reflexivity. Qed.

(** ** non-vacuity: 20 insertions with heavily colliding hashes, growth, deletions *)
Example hash_key_ok_example : key_ok (fun k : Z => k mod 3) Z.eqb.
Proof.
  constructor.
  - apply Z.eqb_refl.
  - apply Z.eqb_sym.
  - intros a b c H1 H2. apply Z.eqb_eq in H1, H2. subst. apply Z.eqb_refl.
  - intros a b H. apply Z.eqb_eq in H. now subst.
  - intro a. pose proof (Z.mod_pos_bound a 3 ltac:(lia)). change (2^64) with 18446744073709551616. lia.
Qed.
Example hash_run_example :
  match hash_core_init 0 with
  | Ok t0 => match hash_run (fun k => k mod 3) Z.eqb
     (map (fun i => HPut (Z.of_nat i) (Z.of_nat (i * i))) (seq 0 20) ++ [HGet 7; HDelete 7; HGet 7; HReplace 99 1; HSweep (fun k => Z.even k); HCount; HAdjoin 3 0; HGet 3]) t0 with
     | Ok (t, l) => num_buckets t = 16 /\ num_entries t = 9 /\ nth 20 l HUnit = HVal (Some 49) /\ nth 22 l HUnit = HVal None /\ last l HUnit = HVal (Some 9)
     | _ => False end
  | _ => False end.
Proof. vm_compute. auto. Qed.

Print Assumptions hash_table_refines_map.
Print Assumptions hash_table_copy_disjoint.
Print Assumptions hash_table_entries_placed.
Print Assumptions fspec_laws.
Print Assumptions hash_table_negative_size_refuted.
Print Assumptions hash_iterator_visits_all.
