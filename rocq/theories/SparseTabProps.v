(** C33: sparse tables behave as finite maps, for every history of operations. *)
From Coq Require Import List Bool ZArith Lia Permutation.
From Verif Require Import Outcome SparseModel HashSpec SparseSpec SparseTrie SparseMap SparseTab SparseTabProofs.
Import ListNotations.
Local Open Scope Z_scope.

(** For every hash function and equivalence that fit together (any collisions), every
    history of fewer than 2^64 operations on any number of tables and their copies, and
    whatever the allocator leaves in fresh memory: no operation fails, asserts or touches
    memory wrongly, every answer is that of the association-list specification (listings
    up to order; errors exactly for a missing key without fallback; %-check passes), and a
    fold over any of the tables, with any proc and seed, visits each entry once. *)
Theorem sparse_tables_refine_maps : forall (K V : Type) (hashfn : K -> Z) (eqf : K -> K -> bool),
  key_ok hashfn eqf ->
  forall (gs : nat -> Z * Z) (ops : list (sop K V)), Z.of_nat (length ops) < 2 ^ 64 ->
  exists w answers, table_run hashfn eqf gs ops (mkW [] []) = Ok (w, answers)
    /\ Forall2 sans_same answers (snd (sspec_run eqf ops []))
    /\ length (w_tabs w) = length (fst (sspec_run eqf ops []))
    /\ forall i st m, nth_error (w_tabs w) i = Some st -> nth_error (fst (sspec_run eqf ops [])) i = Some m ->
       distinct eqf m /\ st_num st = Z.of_nat (length m)
       /\ forall (A : Type) (proc : K -> V -> A -> A) (seed : A), exists es, Permutation m es /\
            sparse_table_fold (w_heap w) st proc seed = Ok (fold_left (fun s e => proc (fst e) (snd e) s) es seed).
Proof.
  intros K V hashfn eqf KO gs ops Hl. destruct (run_ok hashfn eqf KO ops gs _ _ _ (wok_init hashfn eqf) ltac:(lia) ltac:(lia)) as (w & l & E & F & Ls & W).
  exists w, l. split; auto. split; auto. split; [apply W|]. intros i st m Hs Hm. destruct (wi_ok _ _ _ _ _ _ _ _ _ W i st m Hs Hm) as (C & Nm).
  split; [eapply cok_distinct; eauto using LH, LD|]. split; auto. intros A proc seed. destruct (table_fold_ok hashfn eqf A proc seed _ _ _ _ C) as (es & Pm & X). exists es. split; auto. destruct st as [ct num]. cbn [st_trie st_num] in *. subst num. auto.
Qed.

(** Two tables never share storage: an operation on one table does not change what any
    later operation on another table answers.  (A consequence stated for the copy.) *)
Theorem sparse_table_copy_independent : forall (K V : Type) (hashfn : K -> Z) (eqf : K -> K -> bool),
  key_ok hashfn eqf ->
  forall (gs : nat -> Z * Z) (before after : list (sop K V)) i m,
  Z.of_nat (length before) + Z.of_nat (length after) + 2 < 2 ^ 64 ->
  nth_error (fst (sspec_run eqf before [])) i = Some m ->
  let j := length (fst (sspec_run eqf before [])) in
  (forall o, In o after -> match o with SSet a _ _ | SDelete a _ | SUpdate a _ _ _ | SClear a => a <> j | _ => True end) ->
  exists w answers l, table_run hashfn eqf gs (before ++ [SCopy i] ++ after ++ [SFold j]) (mkW [] []) = Ok (w, answers ++ [AList l])
    /\ Permutation l m.
Proof.
  intros K V hashfn eqf KO gs before after i m Hl Hm j Ho.
  assert (Sp : forall ops ops' (ms : list (fmap K V)), sspec_run eqf (ops ++ ops') ms =
     (fst (sspec_run eqf ops' (fst (sspec_run eqf ops ms))), snd (sspec_run eqf ops ms) ++ snd (sspec_run eqf ops' (fst (sspec_run eqf ops ms))))).
  { induction ops as [|o ops IH]; intros ops' ms; cbn [app sspec_run fst snd]. { now destruct (sspec_run eqf ops' ms). }
    destruct (sspec_step eqf o ms) as [m1 a]. rewrite IH. destruct (sspec_run eqf ops m1) as [m2 l2]. cbn [fst snd]. reflexivity. }
  destruct (run_ok hashfn eqf KO (before ++ [SCopy i] ++ after ++ [SFold j]) gs _ _ _ (wok_init hashfn eqf) ltac:(lia)) as (w & l & E & F & _).
  { rewrite !app_length. cbn [length]. lia. }
  assert (Kp : forall ops ms, nth_error ms j = Some m -> (forall o, In o ops -> match o with SSet a _ _ | SDelete a _ | SUpdate a _ _ _ | SClear a => a <> j | _ => True end) -> nth_error (fst (sspec_run eqf ops ms)) j = Some m).
  { induction ops as [|o ops IH]; intros ms H G; cbn [sspec_run]; auto.
    assert (St : nth_error (fst (sspec_step eqf o ms)) j = Some m).
    { assert (On : forall a f, a <> j \/ (forall x, fst (f x) = x) -> nth_error (fst (on ms a f)) j = Some m).
      { intros a f D. unfold on. destruct (nth_error ms a) as [x|] eqn:Ea; [|auto]. specialize (D). destruct (f x) as [y an] eqn:Ef. cbn [fst]. rewrite lupd_nth by (apply nth_error_Some; congruence).
        destruct (j =? a)%nat eqn:J; auto. apply Nat.eqb_eq in J. subst a. destruct D as [D|D]; [now destruct D|]. specialize (D x). rewrite Ef in D. cbn in D. congruence. }
      specialize (G o (or_introl eq_refl)). assert (Lj : (j < length ms)%nat) by (apply nth_error_Some; congruence).
      destruct o; cbn [sspec_step fst]; try (apply On; auto; fail); auto.
      - now rewrite nth_error_app1.
      - destruct (nth_error ms i0); cbn [fst]; auto. now rewrite nth_error_app1. }
    destruct (sspec_step eqf o ms) as [m1 a]. cbn [fst] in St. specialize (IH m1 St (fun o' Ho' => G o' (or_intror Ho'))). now destruct (sspec_run eqf ops m1). }
  rewrite Sp in F. cbn [snd] in F. rewrite Sp in F. cbn [snd] in F. rewrite Sp in F. cbn [snd] in F.
  set (ms1 := fst (sspec_run eqf before [])) in *.
  assert (C1 : fst (sspec_run eqf [SCopy i] ms1) = ms1 ++ [m]) by (cbn [sspec_run sspec_step]; rewrite Hm; reflexivity). rewrite C1 in F.
  assert (C2 : nth_error (fst (sspec_run eqf after (ms1 ++ [m]))) j = Some m).
  { apply Kp; auto. unfold j. rewrite nth_error_app2, Nat.sub_diag; auto. }
  assert (C3 : snd (sspec_run eqf [SFold j] (fst (sspec_run eqf after (ms1 ++ [m])))) = [AList m]) by (cbn [sspec_run sspec_step]; unfold on; rewrite C2; reflexivity). rewrite C3 in F.
  rewrite !app_assoc in F. apply Forall2_app_inv_r in F as (l1 & l2 & _ & F & ->). inversion F as [|x y l3 l4 Hx F' Ex Ey]; subst. inversion F'; subst. destruct x; cbn in Hx; try discriminate. exists w, l1, m0. split; auto.
Qed.

(** ** Non-vacuity: keys 1 to 3, all with one hash, and keys whose hashes differ only in
    the highest bits *)
Definition ex_hash (k : Z) : Z := if k <? 4 then 7 else if k <? 100 then 7 + 2 ^ 60 else k mod 2 ^ 64.
Lemma ex_key_ok : key_ok ex_hash Z.eqb.
Proof.
  constructor; intros.
  - apply Z.eqb_refl.
  - apply Z.eqb_sym.
  - apply Z.eqb_eq in H, H0. apply Z.eqb_eq. congruence.
  - apply Z.eqb_eq in H. now subst.
  - unfold ex_hash. pose proof (Z.mod_pos_bound a (2 ^ 64) eq_refl). destruct (a <? 4), (a <? 100); lia.
Qed.
Example table_history :
  let r := table_run ex_hash Z.eqb (fun _ => (2 ^ 64 - 1, 5)) [SNew; SSet 0 1 10; SSet 0 2 20; SSet 0 3 30; SSet 0 50 50; SSet 0 500 5; SSet 0 2 21; SCopy 0;
    SDelete 0 3; SDelete 0 1; SDelete 0 9; SRef 0 2 None; SRef 0 3 None; SRef 0 3 (Some 1); SRef 1 3 None; SUpdate 1 50 Z.succ None; SFold 0; SFold 1; SNum 0; SNum 1; SCheck 0; SClear 0; SNum 0; SFold 1; SExists 0 2; SExists 1 2] (mkW [] []) in
  match r with Ok (_, l) => l | _ => [] end =
  [AUnit; AUnit; AUnit; AUnit; AUnit; AUnit; AUnit; AUnit;
   ABool true; ABool true; ABool false; AVal 21; AErr; AVal 1; AVal 30; AVal 51; AList [(2, 21); (50, 50); (500, 5)]; AList [(3, 30); (2, 21); (1, 10); (50, 51); (500, 5)]; ANum 3; ANum 5; AUnit; AUnit; ANum 0; AList [(3, 30); (2, 21); (1, 10); (50, 51); (500, 5)]; ABool false; ABool true].
Proof. vm_compute. reflexivity. Qed.

(** ** Removing the visited key while iterating (the documentation does not forbid it, and
    Hash tables support it) does not visit every entry: when the removal collapses a
    node, the iterator jumps over the sibling that has moved up. *)
Fixpoint remove_all (fuel : nat) (h : heap (tbody Z Z)) (st : sptab) (it : stiter) (acc : list Z) : res (list Z) :=
  match fuel with
  | O => UB
  | S f =>
    do r <- sparse_table_iter_next h st it;
    match snd r with
    | None => Ok acc
    | Some p => do d <- sparse_table_delete (fun k => k) Z.eqb h st (fst p);
                remove_all f (fst (fst d)) (snd (fst d)) (fst r) (acc ++ [fst p])
    end
  end.
Theorem sparse_table_iter_with_delete_refuted :
  exists ops w answers st,
    table_run (fun k : Z => k mod 2 ^ 64) Z.eqb (fun _ => (0, 0)) ops (mkW [] []) = Ok (w, answers)
    /\ nth_error (w_tabs w) 0 = Some st /\ fst (sspec_run Z.eqb ops []) = [[(32, 2); (0, 1)]]
    /\ remove_all 10 (w_heap w) st sparse_table_iter_init [] = Ok [0].
Proof.
  exists [SNew; SSet 0 0 1; SSet 0 32 2]. eexists _, _, _. split; [vm_compute; reflexivity|]. split; [reflexivity|]. split; reflexivity.
Qed.

Print Assumptions sparse_tables_refine_maps.
Print Assumptions sparse_table_copy_independent.
Print Assumptions sparse_table_iter_with_delete_refuted.
