(** C35: sparse matrices: the index interleaving is a bijection, and a matrix behaves as
    a finite map from pairs of integers. *)
From Coq Require Import List Bool ZArith Lia Permutation.
From Verif Require Import Outcome SparseModel HashSpec SparseSpec SparseVec SparseMat SparseVecProofs SparseMatProofs SparseMatProofs2 SparseVecProps.
From Verif Require SparseVecProofs2 SparseMap.
Import ListNotations.
Local Open Scope Z_scope.

(** Pairs of coordinates 0 .. 2^32-1 and indices 0 .. 2^64-1 correspond one to one: no two
    cells share an index, every index is used, iteration reports the coordinates that were
    stored; any other pair is rejected. *)
Theorem matrix_index_bijective :
  (forall x y, 0 <= x < 2 ^ 32 -> 0 <= y < 2 ^ 32 -> exists i, index_combine x y = Ok (Some i) /\ 0 <= i < 2 ^ 64 /\ index_split i = Ok (x, y))
  /\ (forall i, 0 <= i < 2 ^ 64 -> exists x y, index_split i = Ok (x, y) /\ 0 <= x < 2 ^ 32 /\ 0 <= y < 2 ^ 32 /\ index_combine x y = Ok (Some i))
  /\ (forall x y, ~ (0 <= x < 2 ^ 32 /\ 0 <= y < 2 ^ 32) -> index_combine x y = Ok None).
Proof.
  assert (R2 : forall x y, in_range2 x y = true <-> (0 <= x < 2 ^ 32 /\ 0 <= y < 2 ^ 32)) by (intros x y; unfold in_range2; rewrite !andb_true_iff, !Z.leb_le, !Z.ltb_lt; tauto).
  split; [|split].
  - intros x y Hx Hy. assert (R : in_range2 x y = true) by (apply R2; auto). exists (comb x y). rewrite combine_ok, R. split; auto. assert (R' : in_range (comb x y) = true) by (rewrite comb_range; auto). split; [now apply range_prop|]. rewrite split_ok by auto. now rewrite sp_comb.
  - intros i Hi. assert (R : in_range i = true) by (apply range_prop; auto). pose proof (sp_range i R) as S. exists (fst (sp i)), (snd (sp i)). rewrite split_ok by auto. split; [now destruct (sp i)|]. pose proof S as S'. apply R2 in S'. split; [apply S'|]. split; [apply S'|]. rewrite combine_ok, S. now rewrite comb_sp.
  - intros x y H. rewrite combine_ok. destruct (in_range2 x y) eqn:R; auto. exfalso. apply H. now apply R2.
Qed.

(** With the restrictions of [sparse_vectors_refine_maps_partial], every history of matrix
    operations answers as finite maps from pairs do. *)
Theorem sparse_matrices_refine_maps_partial : forall (V : Type) (D : vdesc V) (conv : V -> option V),
  element_type D conv ->
  forall (dflt : option V) (add : V -> V -> V) (zero : V) (gs : nat -> Z * Z) (ops : list (mop V)),
  Z.of_nat (length ops) < 2 ^ 64 ->
  (forall o, In o ops -> match o with MRef _ x y fb | MUpdate _ x y _ fb => (0 <= x < 2 ^ 32 /\ 0 <= y < 2 ^ 32) \/ fb = None | _ => True end) ->
  (forall o, In o ops -> match o with MInc _ _ _ _ _ => False | _ => True end) \/ (forall o, In o ops -> match o with MNum _ => False | _ => True end) ->
  exists w answers, matrix_run D dflt add zero gs ops (mkVW [] []) = Ok (w, answers)
    /\ Forall2 sans_same answers (snd (mspec_run conv dflt add zero ops [])).
Proof.
  intros V D conv ET dflt add zero gs ops Hl Hr Hx. destruct (sparse_vectors_refine_maps_partial V D conv ET dflt add zero gs (map tr ops)) as (w & l & E & F & _).
  - now rewrite map_length.
  - intros o Ho. apply in_map_iff in Ho. destruct Ho as (o' & <- & Ho). specialize (Hr o' Ho). destruct o'; cbn [tr]; auto; (destruct Hr as [Hr|Hr]; [left; apply range_prop; rewrite comb_range; unfold in_range2; rewrite !andb_true_iff, !Z.leb_le, !Z.ltb_lt; tauto|now right]).
  - destruct Hx as [Hx|Hx]; [left|right]; intros o Ho; apply in_map_iff in Ho; destruct Ho as (o' & <- & Ho); specialize (Hx o' Ho); destruct o'; cbn [tr]; auto.
  - rewrite run_tr, E. eexists _, _. split; [reflexivity|]. destruct (spec_run_tr conv dflt add zero ops [] (Forall_nil _)) as (S & _). cbn [pms map] in S. rewrite S. cbn [snd]. apply same_tr; auto.
    clear - E. revert gs E. generalize (mkVW (V:=V) [] []). revert w l. induction ops as [|o ops IH]; intros w l w0 gs E; cbn [map vector_run] in E; [now injection E as _ <-|].
    destruct (vector_step D dflt add zero (gs O) (tr o) w0) as [[w1 a]| | |]; try discriminate. cbn [bind fst snd] in E. destruct (vector_run D dflt add zero (fun n => gs (S n)) (map tr ops) w1) as [[w2 l2]| | |] eqn:E2; try discriminate. cbn [bind fst snd] in E. injection E as _ <-. cbn [length]. f_equal. eapply IH; eauto.
Qed.

(** ** Non-vacuity *)
Example index_values : index_combine 0x12345678 0x9abcdef0 = Ok (Some 0x91a2b3c4d5e6f708).
Proof. vm_compute. reflexivity. Qed.
Example matrix_history :
  let r := matrix_run (g_desc (V:=Z)) None Z.add 0 (fun _ => (2 ^ 64 - 1, 5)) [MNew; MSet 0 3 5 35; MSet 0 5 3 53; MSet 0 (2 ^ 32 - 1) (2 ^ 32 - 1) 99; MSet 0 (2 ^ 32) 0 1; MSet 0 (-1) 0 1; MCopy 0; MUpdate 0 3 5 Z.succ None; MUpdate 0 0 0 Z.succ None; MRef 0 3 5 None; MRef 1 3 5 None; MRef 0 0 0 None; MRef 0 0 0 (Some 4);
     MDelete 0 5 3; MDelete 0 5 3; MExists 0 5 3; MExists 1 5 3; MFold 0; MFold 1; MNum 0; MNum 1] (mkVW [] []) in
  match r with Ok (_, l) => l | _ => [] end =
  [AUnit; AUnit; AUnit; AUnit; AErr; AErr; AUnit; AUnit; AErr; AVal 36; AVal 35; AErr; AVal 4; ABool true; ABool false; ABool false; ABool true; AList [((3, 5), 36); ((2 ^ 32 - 1, 2 ^ 32 - 1), 99)]; AList [((3, 5), 35); ((5, 3), 53); ((2 ^ 32 - 1, 2 ^ 32 - 1), 99)]; ANum 2; ANum 3].
Proof. vm_compute. reflexivity. Qed.

Print Assumptions matrix_index_bijective.
Print Assumptions sparse_matrices_refine_maps_partial.
