(** Sparse vectors refine finite maps from indices. *)
From Coq Require Import ZArith List Bool Arith Lia Permutation.
From Verif Require Import Outcome BitsModel BitsSpec BitsProofs BitsProofs3 SparseModel SparseNode SparseTrie SparseTrie2 SparseTrie3 HashSpec HashProofs2 SparseSpec SparseMap SparseVec SparseTabProofs SparseVecProofs.
Import ListNotations.
Local Open Scope Z_scope.
Ltac Zify.zify_post_hook ::= idtac.

Lemma aset_same : forall A (l : list A) i x, nth_error l i = Some x -> aset l i x = Ok l.
Proof.
  intros A l i x H. unfold aset. assert (Hi : (i < length l)%nat) by (apply nth_error_Some; congruence). destruct (Nat.ltb_spec i (length l)); [|lia]. f_equal. exact (lupd_same _ _ _ _ H).
Qed.

Section P.
Context {V : Type} (D : vdesc V) (conv : V -> option V) (sl : leaf (vbody V) -> nat -> option V) (vlok : leaf (vbody V) -> Prop) (DO : desc_ok D conv sl vlok).
Context (dflt : option V) (add : V -> V -> V) (zero : V).
Notation vleaf := (leaf (vbody V)).
Notation s := (d_shift D).
Notation vhash := (vhash D).
Notation off := (off D).
Notation slots := (slots D sl).
Notation vents := (vents D sl).
Notation vok := (vok D vlok).
Notation look := (flookup Z.eqb).
Notation cok := (cok vents vok).
Notation le := (le vents).
Notation KO := (vhash_ok D conv sl vlok DO).
Notation H1 := (VH D conv sl vlok DO).
Notation H2 := (vents_dist D sl vlok).

Lemma v_get : forall h ct L m k, cok h ct L m -> in_range k = true -> exists r, ctrie_get h ct (leafno D k) = Ok r /\
  match r with None => look k m = None | Some a => In a L /\ exists l, nth_error h a = Some l /\ leaf_key l = vhash k /\ vok l /\ look k m = sl l (off k) end.
Proof.
  intros h ct L m k C R. rewrite (leafno_ok D) by auto. destruct (cok_get vhash Z.eqb KO vents vok H1 H2 h ct L m k C) as (r & E & X). exists r. split; auto. destruct r as [a|]; auto. destruct X as (Ha & l & N & Kl & O & Lk). split; auto. exists l. split; auto. split; auto. split; auto.
  rewrite Lk. apply (vents_look D conv sl vlok DO); auto.
Qed.
Lemma v_ref : forall h ct L m k fb num, cok h ct L m -> in_range k = true -> sparse_vector_ref D h (mkSv ct num) k fb = Ok (orelse (look k m) fb).
Proof.
  intros h ct L m k fb num C R. unfold sparse_vector_ref. cbn [sv_trie]. destruct (v_get h ct L m k C R) as (r & -> & X). cbn [bind]. destruct r as [a|]; [|now rewrite X]. destruct X as (_ & l & N & _ & O & ->). rewrite (aget_ok _ _ _ _ N). cbn [bind]. rewrite (do_ref _ _ _ _ DO) by (auto; apply O). reflexivity.
Qed.
Lemma look_out : forall h ct L m k, cok h ct L m -> in_range k = false -> look k m = None.
Proof.
  intros h ct L m k C R. pose proof (cok_distinct vhash Z.eqb KO vents vok H1 H2 h ct L m C) as Dm. rewrite (flookup_perm vhash Z.eqb KO k m _ (co_perm _ _ _ _ _ _ C) Dm). apply flookup_miss. intros e He. apply in_flat_map in He. destruct He as (a & Ha & He).
  unfold SparseMap.le in He. destruct (nth_error h a) as [l|] eqn:N; [|destruct He]. pose proof (co_lok _ _ _ _ _ _ C a l Ha N) as O. destruct e as [k' v]. apply (vents_in D conv sl vlok DO) in He; auto. cbn [fst]. apply Z.eqb_neq. intros ->. destruct He. congruence.
Qed.
Definition frame (h h' : heap (vbody V)) (L : list nat) : Prop := forall b, (b < length h)%nat -> ~ In b L -> nth_error h' b = nth_error h b.
#[local] Hint Unfold frame : core.
Lemma v_set : forall g h ct L m k v num, cok h ct L m -> in_range k = true -> exists h' ct' L',
  sparse_vector_set D g h (mkSv ct num) k v = Ok (h', mkSv ct' (if bound (conv v) then if bound (look k m) then num else (num + 1) mod 2 ^ 64 else num), bound (conv v)) /\
  cok h' ct' L' (match conv v with Some c => fput Z.eqb k c m | None => m end) /\
  (forall b, In b L' -> In b L \/ (length h <= b)%nat) /\ frame h h' L.
Proof.
  intros g h ct L m k v num C R. unfold sparse_vector_set. cbn [sv_trie sv_num]. rewrite (leafno_ok D) by auto.
  destruct (cok_add vhash Z.eqb KO vents vok H1 H2 h ct L m (vhash k) (d_alloc D (fst g) (snd g)) C (vhash_u64 D conv sl vlok DO k)) as (h1 & ct1 & a & L1 & l & x & rest & E & N & Kl & Ia & Fl & Fr & Ln & Ha & Cx & Pm & Ms & Up).
  rewrite E. cbn [bind]. rewrite (aget_ok _ _ _ _ N). cbn [bind].
  assert (O : vok l /\ x = vents l). { destruct Cx as [(-> & O)|(-> & ->)]; [auto|]. destruct (vents_fresh D conv sl vlok DO (fst g) (snd g) (vhash k)) as (A & B); [apply (vhash_u64 D conv sl vlok DO)|apply (vhash_range D conv sl vlok DO)|auto]. }
  destruct O as (O & ->). clear Cx. assert (Mk : miss Z.eqb k rest) by (apply Ms; auto). pose proof (cok_distinct vhash Z.eqb KO vents vok H1 H2 h ct L m C) as Dm.
  assert (Lk : look k m = sl l (off k)). { rewrite (flookup_perm vhash Z.eqb KO k m _ Pm Dm). rewrite flookup_app by auto. apply (vents_look D conv sl vlok DO); auto. }
  pose proof (do_set _ _ _ _ DO l k v (proj1 O) R) as S. destruct (conv v) as [c|]; cbn [bound].
  - destruct S as (l' & -> & Kl' & O' & Hs). cbn [fst snd]. destruct (vents_put D conv sl vlok DO l l' k c O Kl' O' (eq_sym Kl) R Hs) as (Ol & Pl). destruct (Up l' ltac:(congruence) Ol) as (h' & X & C' & Ln' & Fr'). rewrite X. cbn [bind]. exists h', ct1, L1. split.
    { rewrite Lk. destruct (bound (sl l (off k))); reflexivity. } split; [|split].
    + eapply cok_perm; [exact C'|]. rewrite Pl. rewrite <- fput_app by auto. symmetry. now apply (fput_perm vhash Z.eqb KO).
    + intros b Hb. destruct (Fl b Hb); auto. right. lia.
    + intros b Hb Nb. rewrite Fr' by (intros ->; auto). auto.
  - rewrite S. cbn [fst snd]. exists h1, ct1, L1. split; [reflexivity|]. destruct (Up l Kl O) as (h' & X & C' & _). rewrite (aset_same _ _ _ _ N) in X. injection X as <-. split; [|split].
    + eapply cok_perm; [exact C'|]. now symmetry.
    + intros b Hb. destruct (Fl b Hb); auto. right. lia.
    + intros b Hb Nb. auto.
Qed.
Lemma v_delete : forall h ct L m k num, cok h ct L m -> in_range k = true -> exists h',
  sparse_vector_delete D h (mkSv ct num) k = Ok (h', mkSv ct (if bound (look k m) then (num - 1) mod 2 ^ 64 else num), look k m) /\ cok h' ct L (fremove Z.eqb k m) /\ frame h h' L.
Proof.
  intros h ct L m k num C R. unfold sparse_vector_delete. cbn [sv_trie sv_num]. destruct (v_get h ct L m k C R) as (r & -> & X). cbn [bind]. destruct r as [a|].
  2:{ exists h. rewrite X. split; [reflexivity|]. split; auto. rewrite fremove_miss; auto. now apply flookup_none_miss. }
  destruct X as (Ha & l & N & Kl & O & Lk). rewrite (aget_ok _ _ _ _ N). cbn [bind]. destruct (do_delete _ _ _ _ DO l k (proj1 O) R) as (l' & -> & Kl' & O' & Hs). cbn [bind fst snd].
  destruct (vents_remove D conv sl vlok DO l l' k O Kl' O' (eq_sym Kl) R Hs) as (Ol & Pl). destruct (cok_split vhash Z.eqb KO vents vok H1 h ct L m a l C Ha N) as (rest & Pm & Ms & Up & _).
  destruct (aset_ok _ h a l') as (h' & X & Ln & Hn). { apply nth_error_Some. congruence. } rewrite X. cbn [bind]. exists h'. rewrite Lk. split; auto. split.
  - eapply cok_perm; [apply (Up l' h'); auto|]. rewrite Pl. rewrite <- fremove_app by auto. symmetry. now apply fremove_perm.
  - intros b Hb Nb. rewrite Hn. destruct (Nat.eqb_spec b a) as [->|]; [contradiction|auto].
Qed.
Lemma v_inc : forall g h ct L m k d fb num, cok h ct L m -> in_range k = true ->
  let v := add (match look k m with Some x => x | None => match fb with Some f => f | None => match dflt with Some d => d | None => zero end end end) d in
  exists h' ct' L' num', sparse_vector_inc D dflt add zero g h (mkSv ct num) k d fb = Ok (h', mkSv ct' num', if bound (conv v) then Some v else None) /\
  cok h' ct' L' (match conv v with Some c => fput Z.eqb k c m | None => m end) /\
  (forall b, In b L' -> In b L \/ (length h <= b)%nat) /\ frame h h' L.
Proof.
  intros g h ct L m k d fb num C R v. unfold sparse_vector_inc. cbn [sv_trie]. destruct (v_get h ct L m k C R) as (r & E & X). rewrite E. cbn [bind]. destruct r as [a|].
  - destruct X as (Ha & l & N & Kl & O & Lk). rewrite (aget_ok _ _ _ _ N). cbn [bind]. rewrite (do_ref _ _ _ _ DO) by (auto; apply O). cbn [bind]. rewrite <- Lk. fold v. pose proof (do_set _ _ _ _ DO l k v (proj1 O) R) as S. destruct (conv v) as [c|]; cbn [bound].
    + destruct S as (l' & -> & Kl' & O' & Hs). cbn [fst snd]. destruct (vents_put D conv sl vlok DO l l' k c O Kl' O' (eq_sym Kl) R Hs) as (Ol & Pl). destruct (cok_split vhash Z.eqb KO vents vok H1 h ct L m a l C Ha N) as (rest & Pm & Ms & Up & _).
      destruct (aset_ok _ h a l') as (h' & X & Ln & Hn). { apply nth_error_Some. congruence. } rewrite X. cbn [bind]. exists h', ct, L, num. split; auto. split; [|split; auto].
      * eapply cok_perm; [apply (Up l' h'); auto|]. rewrite Pl. rewrite <- fput_app by auto. symmetry. apply (fput_perm vhash Z.eqb KO); auto. eapply (cok_distinct vhash Z.eqb KO vents vok H1 H2); eauto.
      * intros b Hb Nb. rewrite Hn. destruct (Nat.eqb_spec b a) as [->|]; [contradiction|auto].
    + rewrite S. exists h, ct, L, num. auto.
  - subst v. rewrite X. set (v := add _ d). destruct (v_set g h ct L m k v num C R) as (h' & ct' & L' & -> & C' & Fl & Fr). cbn [bind fst snd]. eexists h', ct', L', _. split; [reflexivity|auto].
Qed.

(** *** iteration *)
Definition cur_rest (h : heap (vbody V)) (it : sviter) : list (Z * V) :=
  match vi_leaf it with
  | None => []
  | Some a => match nth_error h a with Some l => map (fun p => (leaf_key l * 2 ^ Z.of_nat s + Z.of_nat (fst p), snd p)) (slots l (Z.to_nat (vi_index it + 1))) | None => [] end
  end.
Definition it_ok (h : heap (vbody V)) (L : list nat) (it : sviter) (B : list nat) : Prop :=
  itpos h L (vi_ct it) B /\ match vi_leaf it with None => True | Some a => In a L /\ -1 <= vi_index it < 2 ^ Z.of_nat s end.
Lemma next_ok : forall h ct num L m, cok h ct L m -> forall fuel it B, it_ok h L it B -> (length B + 1 < fuel)%nat ->
  exists it' B', sparse_vector_iter_next D fuel h (mkSv ct num) it = Ok (it', hd_error (cur_rest h it ++ flat_map (le h) B)) /\
    (cur_rest h it ++ flat_map (le h) B <> [] -> it_ok h L it' B' /\ (length B' <= length B)%nat /\ cur_rest h it' ++ flat_map (le h) B' = tl (cur_rest h it ++ flat_map (le h) B)).
Proof.
  intros h ct num L m C. pose proof (co_tok _ _ _ _ _ _ C) as T. induction fuel as [|fuel IH]; intros it B (Ip & Lf) Hf; [lia|]. cbn [sparse_vector_iter_next sv_trie].
  assert (Adv : forall i, cur_rest h it = [] -> exists it' B', (do r <- ctiter_next h ct (vi_ct it); match snd r with None => Ok (mkVi None i (fst r), None) | Some a => sparse_vector_iter_next D fuel h (mkSv ct num) (mkVi (Some a) (-1) (fst r)) end) = Ok (it', hd_error (flat_map (le h) B)) /\
    (flat_map (le h) B <> [] -> it_ok h L it' B' /\ (length B' <= length B)%nat /\ cur_rest h it' ++ flat_map (le h) B' = tl (flat_map (le h) B))).
  { intros i _. destruct (tok_next h ct L (vi_ct it) B T Ip) as (it' & -> & X). cbn [bind fst snd]. destruct B as [|a B]; cbn [hd_error].
    - eexists _, []. split; [reflexivity|]. intros Q. now destruct Q.
    - assert (Ia : In a L). { destruct Ip as (_ & [(_ & <-)|(_ & A0 & b & -> & _)]); [now left|]. rewrite in_app_iff. right. right. now left. }
      destruct (tok_leaf _ _ _ _ T Ia) as (l & N & _). destruct (IH (mkVi (Some a) (-1) it') B) as (it2 & B2 & E & Y).
      { split; [exact X|]. cbn [vi_leaf vi_index]. split; auto. pose proof (pow_s D). lia. } { cbn [length] in Hf. lia. }
      assert (Ec : cur_rest h (mkVi (Some a) (-1) it') = le h a). { unfold cur_rest. cbn [vi_leaf vi_index]. unfold SparseMap.le. rewrite N. reflexivity. }
      rewrite Ec in *. cbn [flat_map]. exists it2, B2. split; auto. intros Q. destruct (Y Q) as (Y1 & Y2 & Y3). split; auto. split; [cbn; lia|auto]. }
  destruct (vi_leaf it) as [a|] eqn:El.
  - destruct Lf as (Ia & Hi). destruct (tok_leaf _ _ _ _ T Ia) as (l & N & _). rewrite (aget_ok _ _ _ _ N). cbn [bind]. pose proof (co_lok _ _ _ _ _ _ C a l Ia N) as O. set (n := Z.to_nat (vi_index it + 1)).
    assert (Ec : cur_rest h it = map (fun p => (leaf_key l * 2 ^ Z.of_nat s + Z.of_nat (fst p), snd p)) (slots l n)) by (unfold cur_rest; now rewrite El, N). pose proof (pow_nat D) as Pn.
    assert (Hn : (n <= 2 ^ s)%nat) by (unfold n; lia). destruct (do_iter _ _ _ _ DO l n (proj1 O) Hn) as (j & E & Hj). replace (Z.of_nat n - 1) with (vi_index it) in E by (unfold n; lia). rewrite E. cbn [bind fst snd].
    destruct (slots l n) as [|p r] eqn:Es; cbn [map] in Ec; rewrite Ec; cbn [hd_error option_map app].
    + destruct (Adv j Ec) as (it' & B' & E' & Y). exists it', B'. split; auto.
    + specialize (Hj p eq_refl). subst j. destruct (slots_cons D sl l n p r Es Hn) as (P1 & P2 & P3 & P4). eexists _, B. split.
      * f_equal. f_equal. f_equal. f_equal. rewrite Z.shiftl_mul_pow2 by lia. apply Z.mod_small. destruct (vkey_ok D conv sl vlok DO l (fst p) O P1) as (Rg & _). apply range_prop in Rg. exact Rg.
      * intros _. split; [split; [exact Ip|]; cbn [vi_leaf vi_index]; split; auto; lia|]. split; auto. cbn [tl]. f_equal. unfold cur_rest. cbn [vi_leaf vi_index]. rewrite N. replace (Z.to_nat (Z.of_nat (fst p) + 1)) with (S (fst p)) by lia. now rewrite <- P4.
  - assert (Ec : cur_rest h it = []) by (unfold cur_rest; now rewrite El). rewrite Ec. cbn [app]. destruct (Adv (vi_index it) Ec) as (it' & B' & E' & Y). exists it', B'. auto.
Qed.
Lemma vfold_ok : forall A (proc : Z -> V -> A -> A) h ct num L m, cok h ct L m -> forall fuel it B es seed, it_ok h L it B -> (length B <= length h)%nat -> es = cur_rest h it ++ flat_map (le h) B -> (length es < fuel)%nat ->
  vfold_loop D fuel h (mkSv ct num) proc it seed = Ok (fold_left (fun s e => proc (fst e) (snd e) s) es seed).
Proof.
  intros A proc h ct num L m C. induction fuel as [|fuel IH]; intros it B es seed I Hb Es Hl; [lia|]. cbn [vfold_loop]. destruct (next_ok h ct num L m C (S (S (length h))) it B I ltac:(lia)) as (it' & B' & -> & Y). cbn [bind fst snd]. rewrite <- Es in *. destruct es as [|e es]; cbn [hd_error]; [reflexivity|].
  destruct (Y ltac:(discriminate)) as (I' & Hb' & Es'). cbn [fold_left]. apply (IH it' B'); auto; [lia|]. cbn [length] in Hl. lia.
Qed.
Lemma nodup_le : forall (L : list nat) n, NoDup L -> (forall a, In a L -> (a < n)%nat) -> (length L <= n)%nat.
Proof. intros L n N H. rewrite <- (seq_length n 0). apply NoDup_incl_length; auto. intros a Ha. apply in_seq. specialize (H a Ha). lia. Qed.
Lemma vector_fold_ok : forall A (proc : Z -> V -> A -> A) seed h ct num L m, cok h ct L m -> exists es, Permutation m es /\
  sparse_vector_fold D h (mkSv ct num) proc seed = Ok (fold_left (fun s e => proc (fst e) (snd e) s) es seed).
Proof.
  intros A proc seed h ct num L m C. exists (flat_map (le h) L). split; [apply C|]. unfold sparse_vector_fold. pose proof (tok_nodup _ _ _ (co_tok _ _ _ _ _ _ C)) as ND.
  assert (Ll : (length L <= length h)%nat). { apply nodup_le; auto. intros a Ha. eapply cok_bound; eauto. }
  apply (vfold_ok A proc h ct num L m C _ _ L); auto; [split; [apply itpos_init|exact Logic.I]|].
  assert (X : forall L', (length (flat_map (le h) L') <= 2 ^ s * length L')%nat). { induction L' as [|a L' IH]; [cbn; lia|]. cbn [flat_map length]. rewrite app_length, Nat.mul_succ_r. unfold SparseMap.le at 1. set (q := (2 ^ s)%nat) in *. destruct (nth_error h a) as [l|]; [|cbn [length]; lia].
    assert (Q : (length (vents l) <= q)%nat). { unfold SparseVecProofs.vents. rewrite map_length. pose proof (slots_len D sl l 0) as Q. fold q in Q. lia. } lia. }
  specialize (X L). pose proof (Nat.mul_le_mono_l _ _ (2 ^ s) Ll). lia.
Qed.

(** *** all the vectors.  [ex]: the entry counts are exact *)
Context (ex : bool).
Definition nok (sv : spvec) (m : fmap Z V) : Prop := ex = true -> sv_num sv = Z.of_nat (length m).
Notation winv := (winv vents vok sv_trie nok).
Definition vwok (w : vworld V) (ms : list (fmap Z V)) (N : Z) : Prop := exists Ls, winv (vw_heap w) (vw_vecs w) ms Ls N.
Lemma von_ok : forall w ms N i f fs, vwok w ms N ->
  (forall ct num L m, cok (vw_heap w) ct L m -> nok (mkSv ct num) m -> Z.of_nat (length m) <= N -> exists h' ct' num' L' a, f (mkSv ct num) = Ok (h', mkSv ct' num', a) /\
     cok h' ct' L' (fst (fs m)) /\ nok (mkSv ct' num') (fst (fs m)) /\ Z.of_nat (length (fst (fs m))) <= N + 1 /\ sans_same a (snd (fs m)) /\
     (forall b, In b L' -> In b L \/ (length (vw_heap w) <= b)%nat) /\ frame (vw_heap w) h' L) ->
  exists w' a, on_vec w i f = Ok (w', a) /\ sans_same a (snd (on ms i fs)) /\ vwok w' (fst (on ms i fs)) (N + 1).
Proof.
  intros w ms N i f fs (Ls & W) H. unfold on_vec, on. destruct (nth_error (vw_vecs w) i) as [sv|] eqn:E.
  - assert (Hi : (i < length (vw_vecs w))%nat) by (apply nth_error_Some; congruence). destruct (nth_some _ ms i) as (m & Em). { rewrite <- (wi_len _ _ _ _ _ _ _ _ _ W). exact Hi. }
    rewrite Em. destruct (wi_ok _ _ _ _ _ _ _ _ _ W i sv m E Em) as (C & Nm). destruct sv as [ct num]. cbn [sv_trie] in C.
    destruct (H ct num (Ls i) m C Nm) as (h' & ct' & num' & L' & a & X & C' & Nm' & Bd' & An & Fl & Fr). { apply (wi_bnd _ _ _ _ _ _ _ _ _ W). eapply nth_error_In; eauto. }
    rewrite X. cbn [bind fst snd]. destruct (fs m) as [m1 an]. cbn [fst snd] in *. eexists _, _. split; [reflexivity|]. split; auto. exists (fupd Ls i L'). cbn [vw_heap vw_vecs]. eapply winv_upd; eauto; lia.
  - assert (Hi : nth_error ms i = None). { apply nth_error_None. rewrite <- (wi_len _ _ _ _ _ _ _ _ _ W). now apply nth_error_None. } rewrite Hi. cbn [fst snd]. eexists _, _. split; [reflexivity|]. split; [reflexivity|]. exists Ls. eapply winv_N; eauto. lia.
Qed.
Lemma put_bound : forall k v (m : fmap Z V) N, Z.of_nat (length m) <= N -> Z.of_nat (length (fput Z.eqb k v m)) <= N + 1.
Proof. intros k v m N H. rewrite fput_length. destruct (bound _); lia. Qed.
Lemma nok_put : forall ct num ct' k c m, nok (mkSv ct num) m -> Z.of_nat (length m) + 1 < 2 ^ 64 -> nok (mkSv ct' (if bound (look k m) then num else (num + 1) mod 2 ^ 64)) (fput Z.eqb k c m).
Proof. intros ct num ct' k c m Nm Bd E. specialize (Nm E). cbn [sv_num] in *. rewrite fput_length, Nm. destruct (bound (look k m)); auto. rewrite Z.mod_small by lia. lia. Qed.
Lemma set_step : forall g w ct num L m k v a (Bd : Z.of_nat (length m) + 1 < 2 ^ 64) N, cok (vw_heap w) ct L m -> nok (mkSv ct num) m -> Z.of_nat (length m) <= N -> sans_same a a ->
  exists h' ct' num' L' an, scm_set D g (vw_heap w) (mkSv ct num) k v a = Ok (h', mkSv ct' num', an) /\
     cok h' ct' L' (fst (vset conv m k v a)) /\ nok (mkSv ct' num') (fst (vset conv m k v a)) /\ Z.of_nat (length (fst (vset conv m k v a))) <= N + 1 /\ sans_same an (snd (vset conv m k v a)) /\
     (forall b, In b L' -> In b L \/ (length (vw_heap w) <= b)%nat) /\ frame (vw_heap w) h' L.
Proof.
  intros g w ct num L m k v a Bd N C Nm Hm Aa. unfold scm_set, vset. destruct (in_range k) eqn:R.
  - destruct (v_set g (vw_heap w) ct L m k v num C R) as (h' & ct' & L' & -> & C' & Fl & Fr). cbn [bind fst snd]. destruct (conv v) as [c|]; cbn [bound fst snd].
    + eexists _, _, _, L', _. split; [reflexivity|]. split; auto. split; [now apply nok_put with ct|]. split; [now apply put_bound|]. auto.
    + eexists _, _, _, L', _. split; [reflexivity|]. split; auto. split; [exact Nm|]. split; [lia|]. split; [reflexivity|auto].
  - cbn [fst snd]. eexists _, _, _, L, _. split; [reflexivity|]. split; auto. split; auto. split; [lia|]. split; [reflexivity|auto].
Qed.
Lemma scm_ref_ok : forall h ct L m k fb num, cok h ct L m -> in_range k = true \/ fb = None -> scm_ref D dflt h (mkSv ct num) k fb = Ok (orelse (look k m) (orelse fb dflt)).
Proof.
  intros h ct L m k fb num C H. unfold scm_ref. destruct (in_range k) eqn:R.
  - rewrite (v_ref h ct L m) by auto. cbn [bind]. destruct (look k m), fb; reflexivity.
  - destruct H as [H| ->]; [discriminate|]. cbn [bind]. rewrite (look_out h ct L m) by auto. reflexivity.
Qed.
Definition op_ok (o : vop V) : Prop := match o with
  | VRef _ k fb | VUpdate _ k _ fb => in_range k = true \/ fb = None
  | VInc _ _ _ _ => ex = false
  | VNum _ => ex = true
  | _ => True end.
Lemma vstep_ok : forall g o w ms N, vwok w ms N -> 0 <= N -> N + 1 < 2 ^ 64 -> op_ok o ->
  exists w' a, vector_step D dflt add zero g o w = Ok (w', a) /\ sans_same a (snd (vspec_step conv dflt add zero o ms)) /\ vwok w' (fst (vspec_step conv dflt add zero o ms)) (N + 1).
Proof.
  intros g o w ms N W N0 Bd Ho. destruct o as [|i k v|i k fb|i k|i k|i k f fb|i k d fb|i|i|i|i]; cbn [vector_step vspec_step].
  - destruct W as (Ls & W). eexists _, _. split; [reflexivity|]. split; [reflexivity|]. eexists. cbn [vw_heap vw_vecs]. eapply winv_N with (N := N); [|lia]. eapply (winv_push _ _ _ _ _ _ _ _ _ _ make_sparse_vector [] []); [exact W| |intros _; reflexivity|exact N0|intros a []|auto].
    constructor; [apply tok_init|intros a l []|reflexivity].
  - apply von_ok; auto. intros ct num L m C Nm Hm. eapply set_step; eauto; [lia|reflexivity].
  - apply von_ok; auto. intros ct num L m C Nm Hm. rewrite (scm_ref_ok _ _ L m) by auto. cbn [bind]. eexists _, _, _, L, _. cbn [fst snd]. split; [reflexivity|]. split; auto. split; auto. split; [lia|]. split; [|auto]. unfold val_or_err. destruct (orelse _ _); reflexivity.
  - apply von_ok; auto. intros ct num L m C Nm Hm. cbn [fst snd]. assert (X : (if in_range k then sparse_vector_ref D (vw_heap w) (mkSv ct num) k None else Ok None) = Ok (look k m)).
    { destruct (in_range k) eqn:R; [rewrite (v_ref _ _ L m) by auto; now destruct (look k m)|now rewrite (look_out _ _ _ _ _ C R)]. } rewrite X. cbn [bind]. eexists _, _, _, L, _. split; [reflexivity|]. split; auto. split; auto. split; [lia|]. split; [reflexivity|auto].
  - apply von_ok; auto. intros ct num L m C Nm Hm. destruct (in_range k) eqn:R.
    + destruct (v_delete (vw_heap w) ct L m k num C R) as (h' & -> & C' & Fr). cbn [bind fst snd]. pose proof (fremove_length vhash Z.eqb KO k m (cok_distinct vhash Z.eqb KO vents vok H1 H2 _ _ _ _ C)) as FL.
      eexists _, _, _, L, _. split; [reflexivity|]. split; auto. split. { intros E. specialize (Nm E). cbn [sv_num] in *. rewrite Nm. destruct (bound (look k m)); [rewrite Z.mod_small; lia|lia]. } split; [destruct (bound (look k m)); lia|]. split; [reflexivity|auto].
    + cbn [fst snd]. eexists _, _, _, L, _. split; [reflexivity|]. split; auto. split; auto. split; [lia|]. split; [reflexivity|auto].
  - apply von_ok; auto. intros ct num L m C Nm Hm. rewrite (scm_ref_ok _ _ L m) by auto. cbn [bind]. destruct (orelse (look k m) (orelse fb dflt)) as [v|].
    + eapply set_step; eauto; [lia|reflexivity].
    + cbn [fst snd]. eexists _, _, _, L, _. split; [reflexivity|]. split; auto. split; auto. split; [lia|]. split; [reflexivity|auto].
  - apply von_ok; auto. intros ct num L m C Nm Hm. cbn [op_ok] in Ho. assert (Nk : forall sv m', nok sv m') by (intros sv m' E; congruence).
    assert (Ev : orelse (look k m) (orelse fb (orelse dflt (Some zero))) = Some (match look k m with Some x => x | None => match fb with Some f => f | None => match dflt with Some d => d | None => zero end end end)) by (destruct (look k m), fb, dflt; reflexivity). rewrite Ev. unfold vset.
    destruct (in_range k) eqn:R.
    + destruct (v_inc g (vw_heap w) ct L m k d fb num C R) as (h' & ct' & L' & num' & -> & C' & Fl & Fr). cbn [bind fst snd]. destruct (conv _) as [c|] eqn:Ec; cbn [bound fst snd val_or_err].
      * eexists _, _, _, L', _. split; [reflexivity|]. split; auto. split; auto. split; [now apply put_bound|]. split; [reflexivity|auto].
      * eexists _, _, _, L', _. split; [reflexivity|]. split; auto. split; auto. split; [lia|]. split; [reflexivity|auto].
    + cbn [fst snd]. eexists _, _, _, L, _. split; [reflexivity|]. split; auto. split; auto. split; [lia|]. split; [reflexivity|auto].
  - apply von_ok; auto. intros ct num L m C Nm Hm. unfold sparse_vector_clear. cbn [sv_trie]. destruct (tok_clear (d_clear D) (do_clear _ _ _ _ DO) (vw_heap w) ct L (co_tok _ _ _ _ _ _ C)) as (h' & ct' & E & T & Ln & Fr). rewrite E. cbn [bind fst snd].
    exists h', ct', 0, [], AUnit. split; auto. split; [constructor; auto; intros a l []|]. split; [intros _; reflexivity|]. split; [cbn; lia|]. split; [reflexivity|]. split; [intros b []|auto].
  - destruct W as (Ls & W). destruct (nth_error (vw_vecs w) i) as [sv|] eqn:E.
    + assert (Hi : (i < length (vw_vecs w))%nat) by (apply nth_error_Some; congruence). destruct (nth_some _ ms i) as (m & Em). { rewrite <- (wi_len _ _ _ _ _ _ _ _ _ W). exact Hi. }
      rewrite Em. destruct (wi_ok _ _ _ _ _ _ _ _ _ W i sv m E Em) as (C & Nm). unfold sparse_vector_copy. destruct (cok_copy vents vok (d_copy D) (fun l => proj1 (do_copy _ _ _ _ DO l)) (vcopy_ok D conv sl vlok DO) _ _ _ _ C) as (h2 & ct' & X & C'). rewrite X. cbn [bind fst snd].
      eexists _, _. split; [reflexivity|]. split; [reflexivity|]. eexists. cbn [vw_heap vw_vecs]. eapply winv_N with (N := N); [|lia]. eapply winv_push; eauto.
      * apply (wi_bnd _ _ _ _ _ _ _ _ _ W). eapply nth_error_In; eauto.
      * intros a Ha. apply in_seq in Ha. lia.
      * intros a Ha. now rewrite nth_error_app1 by lia.
    + assert (Hi : nth_error ms i = None). { apply nth_error_None. rewrite <- (wi_len _ _ _ _ _ _ _ _ _ W). now apply nth_error_None. } rewrite Hi. eexists _, _. split; [reflexivity|]. split; [reflexivity|]. exists Ls. eapply winv_N; eauto. lia.
  - apply von_ok; auto. intros ct num L m C Nm Hm. cbn [fst snd sv_num]. eexists _, _, _, L, _. split; [reflexivity|]. split; auto. split; auto. split; [lia|]. split; [|auto]. cbn [sans_same]. f_equal. apply Nm. exact Ho.
  - apply von_ok; auto. intros ct num L m C Nm Hm. destruct (vector_fold_ok _ (fun k v s => s ++ [(k, v)]) [] (vw_heap w) ct num L m C) as (es & Pm & X). rewrite X, fold_collect. cbn [bind app]. eexists _, _, _, L, _. cbn [fst snd]. split; [reflexivity|]. split; auto. split; auto. split; [lia|]. split; [cbn [sans_same]; now symmetry|auto].
Qed.
Lemma vrun_ok : forall ops gs w ms N, vwok w ms N -> 0 <= N -> N + Z.of_nat (length ops) < 2 ^ 64 -> Forall op_ok ops ->
  exists w' l, vector_run D dflt add zero gs ops w = Ok (w', l) /\ Forall2 sans_same l (snd (vspec_run conv dflt add zero ops ms)) /\ vwok w' (fst (vspec_run conv dflt add zero ops ms)) (N + Z.of_nat (length ops)).
Proof.
  induction ops as [|o ops IH]; intros gs w ms N W N0 Bd Ho.
  - exists w, []. split; auto. split; [constructor|]. cbn. now rewrite Z.add_0_r.
  - inversion_clear Ho. cbn [length] in Bd. destruct (vstep_ok (gs O) o w ms N W N0 ltac:(lia) H) as (w1 & a & E & An & W1). cbn [vector_run vspec_run]. rewrite E. cbn [bind fst snd]. destruct (vspec_step conv dflt add zero o ms) as [ms1 an]. cbn [fst snd] in *.
    destruct (IH (fun n => gs (S n)) w1 ms1 (N + 1) W1 ltac:(lia) ltac:(lia) H0) as (w2 & l & E2 & F2 & W2). rewrite E2. cbn [bind fst snd]. destruct (vspec_run conv dflt add zero ops ms1) as [ms2 l2]. cbn [fst snd] in *.
    exists w2, (a :: l). split; auto. split; [now constructor|]. cbn [length]. replace (N + Z.of_nat (S (length ops))) with (N + 1 + Z.of_nat (length ops)) by lia. auto.
Qed.
Lemma vwok_init : vwok (mkVW [] []) [] 0.
Proof. exists (fun _ => []). constructor; auto; [intros [|i] t m E; discriminate|intros m []]. Qed.
End P.
