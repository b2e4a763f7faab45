(** C34: sparse vectors behave as finite maps from indices, for every history. *)
From Coq Require Import List Bool ZArith Lia Permutation.
From Verif Require Import Outcome SparseModel HashSpec SparseSpec SparseMap SparseVec SparseVecProofs SparseVecProofs2 SparseVecInst.
Import ListNotations.
Local Open Scope Z_scope.

(** the element types: general vectors hold any value; a uniform vector with leaves of
    2^shift elements converts with [conv] (s8 .. u64, f16 .. f64, c32 .. c128) *)
Definition element_type {V} (D : vdesc V) (conv : V -> option V) : Prop :=
  (D = g_desc /\ conv = Some) \/ (exists cell0 shift, (shift <= 4)%nat /\ D = u_desc conv cell0 shift).
Lemma element_type_ok : forall V (D : vdesc V) conv, element_type D conv -> exists sl vlok, desc_ok D conv sl vlok.
Proof. intros V D conv [(-> & ->)|(c0 & s & Hs & ->)]; eexists _, _; [apply g_desc_ok|now apply u_desc_ok]. Qed.

(** For every element type, default value and history of fewer than 2^64 operations on any
    number of vectors and copies, with any indices (in range or not) and whatever is in
    fresh memory: no operation reads or writes wrongly or asserts, and every answer is that
    of the finite map specification (error exactly when the specification says so; an
    erroneous store changes nothing); a fold visits each entry once.
    The history must not give a fallback for an index outside 0 .. 2^64-1, and must not use
    both inc! and num-entries: see the two _refuted theorems below. *)
Theorem sparse_vectors_refine_maps_partial : forall (V : Type) (D : vdesc V) (conv : V -> option V),
  element_type D conv ->
  forall (dflt : option V) (add : V -> V -> V) (zero : V) (gs : nat -> Z * Z) (ops : list (vop V)),
  Z.of_nat (length ops) < 2 ^ 64 ->
  (forall o, In o ops -> match o with VRef _ k fb | VUpdate _ k _ fb => 0 <= k < 2 ^ 64 \/ fb = None | _ => True end) ->
  (forall o, In o ops -> match o with VInc _ _ _ _ => False | _ => True end) \/ (forall o, In o ops -> match o with VNum _ => False | _ => True end) ->
  exists w answers, vector_run D dflt add zero gs ops (mkVW [] []) = Ok (w, answers)
    /\ Forall2 sans_same answers (snd (vspec_run conv dflt add zero ops []))
    /\ length (vw_vecs w) = length (fst (vspec_run conv dflt add zero ops []))
    /\ forall i sv m, nth_error (vw_vecs w) i = Some sv -> nth_error (fst (vspec_run conv dflt add zero ops [])) i = Some m ->
       distinct Z.eqb m /\ (forall k v, In (k, v) m -> 0 <= k < 2 ^ 64)
       /\ forall (A : Type) (proc : Z -> V -> A -> A) (seed : A), exists es, Permutation m es /\
            sparse_vector_fold D (vw_heap w) sv proc seed = Ok (fold_left (fun s e => proc (fst e) (snd e) s) es seed).
Proof.
  intros V D conv ET dflt add zero gs ops Hl Hr Hx. destruct (element_type_ok V D conv ET) as (sl & vlok & DO).
  assert (X : exists ex, Forall (op_ok (V:=V) ex) ops).
  { destruct Hx as [Hx|Hx]; [exists true|exists false]; apply Forall_forall; intros o Ho; specialize (Hr o Ho); specialize (Hx o Ho); destruct o; cbn [op_ok]; auto; try contradiction; (destruct Hr as [Hr|Hr]; [left; now apply range_prop|now right]). }
  destruct X as (ex & Ok0). destruct (vrun_ok D conv sl vlok DO dflt add zero ex ops gs _ _ _ (vwok_init D sl vlok ex) ltac:(lia) ltac:(lia) Ok0) as (w & l & E & F & Ls & W).
  exists w, l. split; auto. split; auto. split; [apply W|]. intros i sv m Hs Hm. destruct (wi_ok _ _ _ _ _ _ _ _ _ W i sv m Hs Hm) as (C & Nm).
  assert (Dm : distinct Z.eqb m). { eapply (cok_distinct (vhash D) Z.eqb (vhash_ok D conv sl vlok DO)); [|exact (vents_dist D sl vlok)|exact C]. apply (VH D conv sl vlok DO). }
  split; auto. split.
  - intros k v Hi. apply range_prop. destruct (in_range k) eqn:R; auto. apply look_in in Hi; auto. rewrite (look_out D conv sl vlok DO _ _ _ _ _ C R) in Hi. discriminate.
  - intros A proc seed. destruct sv as [ct num]. cbn [sv_trie] in C. eapply vector_fold_ok; eauto.
Qed.

(** ** The two restrictions are needed *)
(** inc! on an absent index whose neighbour is present stores the entry without counting it *)
Theorem sparse_vector_num_entries_refuted : exists ops w,
  vector_run (u_desc (V:=Z) Some 0 1) None Z.add 0 (fun _ => (0, 0)) ops (mkVW [] []) = Ok (w, [AUnit; AUnit; AVal 7; ABool true; ANum 1])
  /\ snd (vspec_run Some None Z.add 0 ops []) = [AUnit; AUnit; AVal 7; ABool true; ANum 2].
Proof. exists [VNew; VSet 0 4 1; VInc 0 5 7 None; VExists 0 5; VNum 0]. eexists. split; vm_compute; reflexivity. Qed.
(** the fallback of sparse-vector-ref is ignored for an index outside 0 .. 2^64-1 *)
Theorem sparse_vector_ref_fallback_refuted : exists ops w,
  vector_run (g_desc (V:=Z)) None Z.add 0 (fun _ => (0, 0)) ops (mkVW [] []) = Ok (w, [AUnit; AErr])
  /\ snd (vspec_run Some None Z.add 0 ops []) = [AUnit; AVal 5].
Proof. exists [VNew; VRef 0 (2 ^ 64) (Some 5)]. eexists. split; vm_compute; reflexivity. Qed.

(** ** Non-vacuity: an u8 vector (16 elements in a leaf, values 0 to 255) *)
Definition conv_u8 (v : Z) : option Z := if (0 <=? v) && (v <=? 255) then Some v else None.
Example u8_type : element_type (u_desc conv_u8 0 4) conv_u8. Proof. right. exists 0, 4%nat. split; auto. Qed.
Example vector_history :
  let r := vector_run (u_desc conv_u8 0 4) (Some 9) Z.add 0 (fun _ => (2 ^ 64 - 1, 5)) [VNew; VSet 0 17 200; VSet 0 (2 ^ 64 - 1) 3; VSet 0 0 256; VSet 0 (2 ^ 64) 1; VCopy 0; VDelete 0 17; VDelete 0 17; VRef 0 17 None; VRef 0 17 (Some 1); VRef 1 17 None;
     VUpdate 1 17 (fun v => v + 50) None; VUpdate 1 17 (fun v => v + 50) None; VFold 0; VFold 1; VNum 0; VNum 1; VExists 0 0; VClear 1; VFold 1; VRef 0 (-1) None] (mkVW [] []) in
  match r with Ok (_, l) => l | _ => [] end =
  [AUnit; AUnit; AUnit; AErr; AErr; AUnit; ABool true; ABool false; AVal 9; AVal 1; AVal 200; AVal 250; AErr; AList [(2 ^ 64 - 1, 3)]; AList [(17, 250); (2 ^ 64 - 1, 3)]; ANum 1; ANum 2; ABool false; AUnit; AList []; AVal 9].
Proof. vm_compute. reflexivity. Qed.
Example vector_inc_history :
  let r := vector_run (g_desc (V:=Z)) None Z.add 0 (fun _ => (7, 5)) [VNew; VInc 0 6 5 None; VInc 0 7 5 (Some 10); VInc 0 6 1 (Some 100); VFold 0; VInc 0 (-1) 1 None] (mkVW [] []) in
  match r with Ok (_, l) => l | _ => [] end = [AUnit; AVal 5; AVal 15; AVal 6; AList [(6, 6); (7, 15)]; AErr].
Proof. vm_compute. reflexivity. Qed.

Print Assumptions sparse_vectors_refine_maps_partial.
Print Assumptions sparse_vector_num_entries_refuted.
Print Assumptions sparse_vector_ref_fallback_refuted.
