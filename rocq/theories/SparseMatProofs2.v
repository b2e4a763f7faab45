(** Sparse matrices are sparse vectors with translated keys. *)
From Coq Require Import ZArith List Bool Arith Lia Permutation.
From Verif Require Import Outcome BitsModel SparseModel HashSpec SparseSpec SparseVec SparseMat SparseMatProofs.
From Verif Require SparseVecProofs SparseVecProofs2 SparseMap SparseTabProofs.
Import ListNotations.
Local Open Scope Z_scope.
Ltac Zify.zify_post_hook ::= idtac.

Section P.
Context {V : Type} (D : vdesc V) (conv : V -> option V) (dflt : option V) (add : V -> V -> V) (zero : V).
(** the operation on the vector *)
Definition tr (o : mop V) : vop V := match o with
  | MNew => VNew | MSet i x y v => VSet i (comb x y) v | MRef i x y fb => VRef i (comb x y) fb | MExists i x y => VExists i (comb x y)
  | MDelete i x y => VDelete i (comb x y) | MUpdate i x y f fb => VUpdate i (comb x y) f fb | MInc i x y d fb => VInc i (comb x y) d fb
  | MClear i => VClear i | MCopy i => VCopy i | MNum i => VNum i | MFold i => VFold i end.
Definition pm (m : fmap Z V) : fmap (Z * Z) V := map (fun e => (sp (fst e), snd e)) m.
(** the answer of the matrix from that of the vector *)
Definition ta (o : mop V) (a : sans Z V) : sans (Z * Z) V := match a with
  | AUnit => AUnit | AErr => AErr | ABool b => ABool b | ANum n => ANum n | AList l => AList (pm l)
  | AVal v => match o with MUpdate _ _ _ _ _ => AUnit | _ => AVal v end end.
Definition tres (o : mop V) (r : res (vworld V * sans Z V)) : res (vworld V * sans (Z * Z) V) :=
  match r with Ok (w, a) => Ok (w, ta o a) | Err => Err | Panic => Panic | UB => UB end.

Lemma next_key : forall fuel h sv it it' p, sparse_vector_iter_next (V:=V) D fuel h sv it = Ok (it', Some p) -> in_range (fst p) = true.
Proof.
  induction fuel as [|fuel IH]; intros h sv it it' p H; [discriminate|]. cbn [sparse_vector_iter_next] in H.
  assert (Adv : forall i, (do r <- ctiter_next h (sv_trie sv) (vi_ct it); match snd r with None => Ok (mkVi None i (fst r), None) | Some a => sparse_vector_iter_next D fuel h sv (mkVi (Some a) (-1) (fst r)) end) = Ok (it', Some p) -> in_range (fst p) = true).
  { intros i X. destruct (ctiter_next h (sv_trie sv) (vi_ct it)) as [[ci [a|]]| | |]; cbn [bind fst snd] in X; try discriminate. eapply IH; eauto. }
  destruct (vi_leaf it) as [a|]; [|eapply Adv; eauto]. destruct (aget h a) as [l| | |]; try discriminate. cbn [bind] in H. destruct (d_iter D l (vi_index it)) as [[j [v|]]| | |]; try discriminate; cbn [bind fst snd] in H; [|eapply Adv; eauto].
  injection H as <- <-. cbn [fst]. apply SparseVecProofs.range_prop. apply Z.mod_pos_bound. reflexivity.
Qed.
Lemma mfold_eq : forall A (proc : Z -> Z -> V -> A -> A) fuel h sv it seed,
  mfold_loop D fuel h sv proc it seed = vfold_loop D fuel h sv (fun k v s => proc (fst (sp k)) (snd (sp k)) v s) it seed.
Proof.
  intros A proc. induction fuel as [|fuel IH]; intros h sv it seed; [reflexivity|]. cbn [mfold_loop vfold_loop]. destruct (sparse_vector_iter_next D (S (S (length h))) h sv it) as [[it' [p|]]| | |] eqn:E; cbn [bind fst snd]; auto.
  rewrite split_ok by (eapply next_key; eauto). cbn [bind]. apply IH.
Qed.
Lemma vfold_map : forall fuel h sv it acc,
  vfold_loop (V:=V) D fuel h sv (fun k v s => s ++ [(fst (sp k), snd (sp k), v)]) it (pm acc) = match vfold_loop D fuel h sv (fun k v s => s ++ [(k, v)]) it acc with Ok l => Ok (pm l) | Err => Err | Panic => Panic | UB => UB end.
Proof.
  induction fuel as [|fuel IH]; intros h sv it acc; [reflexivity|]. cbn [vfold_loop]. destruct (sparse_vector_iter_next D (S (S (length h))) h sv it) as [[it' [p|]]| | |]; cbn [bind fst snd]; auto.
  rewrite <- IH. f_equal. unfold pm. rewrite map_app. cbn [map fst snd]. f_equal. f_equal. f_equal. now destruct (sp (fst p)).
Qed.
Lemma step_tr : forall g o w, matrix_step D dflt add zero g o w = tres o (vector_step D dflt add zero g (tr o) w).
Proof.
  intros g o w. destruct o as [|i x y v|i x y fb|i x y|i x y|i x y f fb|i x y d fb|i|i|i|i]; cbn [matrix_step vector_step tr]; unfold on_vec, scm_ref, scm_set; try (destruct (nth_error (vw_vecs w) i) as [sv|]; [|reflexivity]); try reflexivity.
  - rewrite combine_ok, comb_range. cbn [bind]. destruct (in_range2 x y); [|reflexivity]. destruct (sparse_vector_set D g (vw_heap w) sv (comb x y) v) as [[r b]| | |]; try reflexivity. cbn [bind fst snd tres ta]. now destruct b.
  - rewrite combine_ok, comb_range. cbn [bind]. destruct (in_range2 x y); [destruct (sparse_vector_ref D (vw_heap w) sv (comb x y) fb) as [r| | |]; try reflexivity; cbn [bind fst snd tres]; now destruct (orelse r dflt)|]. cbn [bind fst snd tres]. now destruct (orelse None dflt).
  - rewrite combine_ok, comb_range. cbn [bind]. destruct (in_range2 x y); [destruct (sparse_vector_ref D (vw_heap w) sv (comb x y) None) as [r| | |]; reflexivity|reflexivity].
  - rewrite combine_ok, comb_range. cbn [bind]. destruct (in_range2 x y); [|reflexivity]. destruct (sparse_vector_delete D (vw_heap w) sv (comb x y)) as [[r b]| | |]; reflexivity.
  - rewrite combine_ok, comb_range. cbn [bind]. destruct (in_range2 x y); cbn [bind].
    + destruct (sparse_vector_ref D (vw_heap w) sv (comb x y) fb) as [r| | |]; try reflexivity. cbn [bind]. destruct (orelse r dflt) as [v|]; [|reflexivity]. destruct (sparse_vector_set D g (vw_heap w) sv (comb x y) (f v)) as [[s b]| | |]; try reflexivity. cbn [bind fst snd tres ta]. now destruct b.
    + destruct (orelse None dflt); reflexivity.
  - rewrite combine_ok, comb_range. cbn [bind]. destruct (in_range2 x y); [|reflexivity]. destruct (sparse_vector_inc D dflt add zero g (vw_heap w) sv (comb x y) d fb) as [[r [v|]]| | |]; reflexivity.
  - destruct (sparse_vector_clear D (vw_heap w) sv) as [r| | |]; reflexivity.
  - destruct (sparse_vector_copy D (vw_heap w) sv) as [r| | |]; reflexivity.
  - unfold sparse_matrix_fold, sparse_vector_fold. rewrite mfold_eq. change (@nil (Z * Z * V)) with (pm []). rewrite vfold_map. destruct (vfold_loop D _ (vw_heap w) sv _ _ []) as [l| | |]; reflexivity.
Qed.
Lemma run_tr : forall ops gs w, matrix_run D dflt add zero gs ops w =
  match vector_run D dflt add zero gs (map tr ops) w with Ok (w', l) => Ok (w', map (fun p => ta (fst p) (snd p)) (combine ops l)) | Err => Err | Panic => Panic | UB => UB end.
Proof.
  induction ops as [|o ops IH]; intros gs w; [reflexivity|]. cbn [matrix_run map vector_run]. rewrite step_tr. destruct (vector_step D dflt add zero (gs O) (tr o) w) as [[w1 a]| | |]; try reflexivity. cbn [tres bind fst snd]. rewrite IH. destruct (vector_run D dflt add zero (fun n => gs (S n)) (map tr ops) w1) as [[w2 l]| | |]; reflexivity.
Qed.

(** ** the specifications *)
Definition keys_ok (m : fmap Z V) : Prop := forall e, In e m -> in_range (fst e) = true.
Lemma eq2_sp : forall x y k, in_range k = true -> eq2 (x, y) (sp k) = (comb x y =? k).
Proof.
  intros x y k R. apply eq_true_iff_eq. unfold eq2. cbn [fst snd]. rewrite andb_true_iff, !Z.eqb_eq. split.
  - intros (-> & ->). now apply comb_sp.
  - intros <-. rewrite comb_range in R. rewrite (sp_comb x y R). auto.
Qed.
Lemma look_pm : forall x y m, keys_ok m -> flookup eq2 (x, y) (pm m) = flookup Z.eqb (comb x y) m.
Proof.
  intros x y m K. unfold flookup. induction m as [|e m IH]; [reflexivity|]. cbn [pm map find fst]. rewrite eq2_sp by (apply K; now left). destruct (comb x y =? fst e); [reflexivity|]. apply IH. intros e' He. apply K. now right.
Qed.
Lemma put_pm : forall x y v m, keys_ok m -> in_range2 x y = true -> fput eq2 (x, y) v (pm m) = pm (fput Z.eqb (comb x y) v m).
Proof.
  intros x y v m K R. unfold fput. rewrite look_pm by auto. destruct (flookup Z.eqb (comb x y) m); [|unfold pm; cbn [map fst snd]; now rewrite sp_comb by auto].
  unfold pm. rewrite !map_map. apply map_ext_in. intros e He. cbn [fst snd]. rewrite eq2_sp by auto. now destruct (comb x y =? fst e).
Qed.
Lemma remove_pm : forall x y m, keys_ok m -> fremove eq2 (x, y) (pm m) = pm (fremove Z.eqb (comb x y) m).
Proof.
  intros x y m K. unfold fremove. induction m as [|e m IH]; [reflexivity|]. cbn [pm map filter fst]. rewrite eq2_sp by (apply K; now left). fold (pm m). rewrite IH by (intros e' He; apply K; now right). destruct (comb x y =? fst e); reflexivity.
Qed.
Lemma keys_put : forall k v m, keys_ok m -> in_range k = true -> keys_ok (fput Z.eqb k v m).
Proof.
  intros k v m K R e He. apply SparseTabProofs.fput_in in He. destruct He as [->|(e' & He & E)]; [exact R|]. rewrite E. auto.
Qed.
Lemma keys_remove : forall k m, keys_ok m -> keys_ok (fremove Z.eqb k m).
Proof. intros k m K e He. apply filter_In in He. apply K. tauto. Qed.
Definition pms (ms : list (fmap Z V)) := map pm ms.
Lemma on_tr : forall o ms i f1 f2, Forall keys_ok ms -> (forall m, keys_ok m -> keys_ok (fst (f2 m)) /\ f1 (pm m) = (pm (fst (f2 m)), ta o (snd (f2 m)))) ->
  on (pms ms) i f1 = (pms (fst (on ms i f2)), ta o (snd (on ms i f2))) /\ Forall keys_ok (fst (on ms i f2)).
Proof.
  intros o ms i f1 f2 K H. unfold on, pms. rewrite nth_error_map. destruct (nth_error ms i) as [m|] eqn:E; cbn [option_map]; [|auto]. assert (Km : keys_ok m) by (rewrite Forall_forall in K; apply K; eapply nth_error_In; eauto). destruct (H m Km) as (K' & ->). destruct (f2 m) as [m2 a2]. cbn [fst snd] in *. split.
  - f_equal. unfold lupd. rewrite map_app. cbn [map]. now rewrite firstn_map, skipn_map.
  - apply Forall_forall. intros m' Hm. apply SparseMap.lupd_in in Hm. destruct Hm as [->|Hm]; auto. rewrite Forall_forall in K. auto.
Qed.
Lemma set_tr : forall o m x y v a, keys_ok m -> keys_ok (fst (vset conv m (comb x y) v a)) /\ mset conv (pm m) x y v (ta o a) = (pm (fst (vset conv m (comb x y) v a)), ta o (snd (vset conv m (comb x y) v a))).
Proof.
  intros o m x y v a K. unfold vset, mset. rewrite comb_range. destruct (in_range2 x y) eqn:R; [|auto]. destruct (conv v) as [c|]; [|auto]. cbn [fst snd]. split; [apply keys_put; auto; now rewrite comb_range|]. now rewrite put_pm.
Qed.
Lemma spec_tr : forall o ms, Forall keys_ok ms -> let r := vspec_step conv dflt add zero (tr o) ms in mspec_step conv dflt add zero o (pms ms) = (pms (fst r), ta o (snd r)) /\ Forall keys_ok (fst r).
Proof.
  intros o ms K. cbv zeta. destruct o as [|i x y v|i x y fb|i x y|i x y|i x y f fb|i x y d fb|i|i|i|i]; cbn [mspec_step vspec_step tr].
  - cbn [fst snd ta]. unfold pms. rewrite map_app. split; auto. apply Forall_app. split; auto. constructor; auto. intros e [].
  - apply on_tr; auto. intros m Km. apply (set_tr (MSet i x y v) m x y v AUnit Km).
  - apply on_tr; auto. intros m Km. cbn [fst snd]. split; auto. f_equal. rewrite look_pm by auto. now destruct (orelse _ _).
  - apply on_tr; auto. intros m Km. cbn [fst snd]. split; auto. f_equal. now rewrite look_pm by auto.
  - apply on_tr; auto. intros m Km. rewrite comb_range. destruct (in_range2 x y); cbn [fst snd ta]; [|auto]. split; [now apply keys_remove|]. now rewrite remove_pm, look_pm.
  - apply on_tr; auto. intros m Km. rewrite look_pm by auto. destruct (orelse _ _) as [v|]; [|auto]. apply (set_tr (MUpdate i x y f fb) m x y (f v) (AVal (f v)) Km).
  - apply on_tr; auto. intros m Km. rewrite look_pm by auto. destruct (orelse _ _) as [v|]; [|auto]. apply (set_tr (MInc i x y d fb) m x y (add v d) (AVal (add v d)) Km).
  - apply on_tr; auto. intros m Km. cbn [fst snd]. split; auto. intros e [].
  - unfold pms. rewrite nth_error_map. destruct (nth_error ms i) as [m|] eqn:E; cbn [option_map fst snd ta]; [|auto]. rewrite map_app. split; auto. apply Forall_app. split; auto. constructor; auto. rewrite Forall_forall in K. apply K. eapply nth_error_In; eauto.
  - apply on_tr; auto. intros m Km. cbn [fst snd ta]. split; auto. unfold pm. now rewrite map_length.
  - apply on_tr; auto.
Qed.
Lemma spec_run_tr : forall ops ms, Forall keys_ok ms -> let r := vspec_run conv dflt add zero (map tr ops) ms in
  mspec_run conv dflt add zero ops (pms ms) = (pms (fst r), map (fun p => ta (fst p) (snd p)) (combine ops (snd r))) /\ Forall keys_ok (fst r).
Proof.
  induction ops as [|o ops IH]; intros ms K; [auto|]. cbv zeta. cbn [mspec_run map vspec_run]. destruct (spec_tr o ms K) as (E & K1). rewrite E. destruct (vspec_step conv dflt add zero (tr o) ms) as [ms1 a]. cbn [fst snd] in *. destruct (IH ms1 K1) as (E2 & K2). rewrite E2. destruct (vspec_run conv dflt add zero (map tr ops) ms1) as [ms2 l]. cbn [fst snd combine map]. auto.
Qed.
Lemma same_tr : forall ops l l', Forall2 sans_same l l' -> length l = length ops -> Forall2 sans_same (map (fun p => ta (fst p) (snd p)) (combine ops l)) (map (fun p => ta (fst p) (snd p)) (combine ops l')).
Proof.
  induction ops as [|o ops IH]; intros l l' F Hl; [constructor|]. destruct F as [|a b l l' Hab F]; [constructor|]. cbn [combine map fst snd]. constructor; [|apply IH; auto].
  destruct a, b; cbn in Hab; try discriminate; try (injection Hab as ->); cbn [ta sans_same]; auto. - now destruct o. - now apply Permutation_map.
Qed.
End P.
