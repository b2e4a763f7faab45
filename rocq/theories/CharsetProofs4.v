From Coq Require Import ZArith List Bool Arith Lia Sorting.Sorted.
From Verif Require Import Outcome BitsModel BitsSpec BitsProofs BitsProofs2 BitsProofs3 BitsProps TreeModel TreeApi TreeSpec TreeProofs TreeProofs2 TreeProofs3 TreeProofs4 CharsetModel CharsetSpec CharsetProofs CharsetProofs2 CharsetProofs3.
Import ListNotations.
Local Open Scope Z_scope.
Ltac Zify.zify_post_hook ::= idtac.

(** *** complement *)
Lemma put_entry_ok : forall t k v a b, tinv t -> num_entries t < 2147483647 -> els t = a ++ b -> Forall (klt k) a -> Forall (kgt k) b ->
  exists t' e, put_entry t k v = Ok t' /\ tinv t' /\ els t' = a ++ e :: b /\ kv e = (k, v).
Proof.
  intros t k v a b I Nn E A B. destruct (create_spec t k a b I Nn E A B) as (t1 & i & C & I1 & E1). unfold put_entry. rewrite C. cbn [bind fst snd].
  destruct (store_spec t1 a _ b v I1 E1) as [I2 E2]. eexists. exists (i, k, Some v). split; [reflexivity|]. split; [exact I2|]. split; [exact E2|reflexivity].
Qed.
Lemma klt_map : forall k a, Forall (klt k) a <-> Forall (fun r => fst r < k) (map kv a).
Proof. intros. rewrite Forall_map. reflexivity. Qed.
Lemma kgt_map : forall k a, Forall (kgt k) a <-> Forall (fun r => k < fst r) (map kv a).
Proof. intros. rewrite Forall_map. reflexivity. Qed.
Lemma bnd_above : forall p b, gapped b p -> Forall (fun r => fst r + 2 <= bnd b p) p.
Proof.
  induction p as [|[x y] p IH]; intros b G; cbn [gapped bnd] in *; constructor.
  - cbn [fst]. destruct G as (? & ? & G). pose proof (bnd_ge _ _ G). lia.
  - apply IH. tauto.
Qed.
Lemma complement_loop_ok : forall rest fuel t done last lg, tinv t -> els t = done ++ rest -> gapped 128 (map kv done) -> bnd 128 (map kv done) <= last + 1 ->
  127 <= last <= MAX -> gapped (last + 1) (map kv rest) -> (length rest < fuel)%nat -> (lg = false -> done = []) ->
  exists t' lg', complement_loop fuel t last lg = Ok (t', snd (compl_list last (map kv rest)), lg') /\ tinv t' /\ rgs t' = map kv done ++ fst (compl_list last (map kv rest)) /\ (lg' = false -> rgs t' = []).
Proof.
  induction rest as [|e rest IH]; intros fuel t done last lg I E Gd Bd Ls Gr Hf Hl; (destruct fuel as [|fuel]; [cbn in Hf; lia|]); cbn [complement_loop].
  - assert (Hd : Forall (fun r => fst r + 2 <= last + 1) (map kv done)). { eapply Forall_impl; [|apply (bnd_above _ _ Gd)]. cbn. intros; lia. }
    rewrite (next_spec t last done []); auto. 2:{ rewrite Forall_map in Hd. eapply Forall_impl; [|exact Hd]. cbn. intros; lia. }
    cbn [hd_error map compl_list fst snd]. exists t, lg. rewrite app_nil_r in *. split; auto. split; auto. unfold rgs. rewrite E. split; auto. intros Hx. now rewrite Hl.
  - assert (Hd : Forall (fun r => fst r + 2 <= last + 1) (map kv done)). { eapply Forall_impl; [|apply (bnd_above _ _ Gd)]. cbn. intros; lia. }
    cbn [map gapped] in Gr. destruct (kv e) as [x y] eqn:Ke. unfold kv in Ke. inversion Ke; subst x y. clear Ke. destruct Gr as (Gx & Gy & Gr).
    assert (Hr : Forall (fun r => e_key e < fst r) (map kv rest)). { eapply Forall_impl; [|apply (gapped_all _ _ Gr)]. cbn. intros; lia. }
    rewrite (next_spec t last done (e :: rest)); auto. 2:{ rewrite Forall_map in Hd. eapply Forall_impl; [|exact Hd]. cbn. intros; lia. }
    2:{ constructor; [unfold kgt; lia|]. apply kgt_map. eapply Forall_impl; [|exact Hr]. cbn. intros; lia. }
    cbn [hd_error]. destruct (delete_spec t done e rest I E) as (t1 & D & I1 & E1). rewrite D. cbn [bind fst]. cbn [map compl_list]. change (kv e) with (e_key e, e_val e). cbn iota.
    destruct (Z.ltb_spec last (e_key e - 1)).
    + destruct (put_entry_ok t1 (last + 1) (e_key e - 1) done rest I1) as (t2 & e2 & P & I2 & E2 & K2).
      * rewrite num_els, E1, app_length by auto. pose proof (gapped_length _ _ Gd ltac:(lia)). pose proof (gapped_length _ _ Gr ltac:(lia)). rewrite map_length in *. lia.
      * exact E1.
      * apply klt_map. eapply Forall_impl; [|exact Hd]. cbn. intros; lia.
      * apply kgt_map. eapply Forall_impl; [|exact Hr]. cbn. intros; lia.
      * rewrite P. cbn [bind]. destruct (IH fuel t2 (done ++ [e2]) (e_val e) true) as (t' & lg' & C & I' & R' & L').
        -- exact I2. -- now rewrite <- app_assoc. -- rewrite map_app. apply gapped_app. split; auto. cbn [map]. rewrite K2. cbn [gapped]. split; [lia|]. split; [lia|exact Logic.I].
        -- rewrite map_app, bnd_app. cbn [map]. rewrite K2. cbn [bnd]. lia.
        -- lia. -- apply gapped_le with (b := e_val e + 2); auto. lia. -- cbn in Hf. lia. -- discriminate.
        -- destruct (compl_list (e_val e) (map kv rest)) as [q z]. cbn [fst snd] in *. exists t', lg'. split; auto. split; auto. split; auto. rewrite R', map_app, <- app_assoc. cbn [map app]. now rewrite K2.
    + destruct (IH fuel t1 done (e_val e) lg) as (t' & lg' & C & I' & R' & L'); auto; try lia.
      * apply gapped_le with (b := e_val e + 2); auto. lia. * cbn in Hf. lia.
      * destruct (compl_list (e_val e) (map kv rest)) as [q z]. cbn [fst snd] in *. exists t', lg'. auto.
Qed.
Lemma complement_large_ok : forall t, tinv t -> gapped 128 (rgs t) ->
  exists t' b, complement_large t = Ok (t', b) /\ tinv t' /\ rgs t' = compl_all (rgs t) /\ (b = false -> rgs t' = []).
Proof.
  intros t I G. destruct (complement_loop_ok (els t) (S (Z.to_nat (num_entries t))) t [] 127 false) as (t1 & lg & C & I1 & R1 & L1); auto; try (cbn [map bnd]; lia); try exact Logic.I.
  { rewrite num_els, Nat2Z.id by auto. lia. }
  fold (rgs t) in *. cbn [map app] in R1. destruct (compl_list_ok (rgs t) 127 G ltac:(lia)) as (Z1 & Gq & Bq & _). unfold complement_large, compl_all. rewrite C. cbn [bind]. destruct (compl_list 127 (rgs t)) as [q z]. cbn [fst snd] in *. change (127 + 1) with 128 in *. change CHAR_MAX with MAX.
  destruct (Z.ltb_spec z MAX).
  - assert (G1 : gapped 128 (rgs t1)) by (now rewrite R1).
    destruct (put_entry_ok t1 (z + 1) MAX (els t1) [] I1) as (t2 & e2 & P & I2 & E2 & K2); auto.
    + apply rgs_num; auto. + now rewrite app_nil_r. + apply klt_map. fold (rgs t1). rewrite R1. eapply Forall_impl; [|apply (bnd_above _ _ Gq)]. cbn. intros; lia.
    + rewrite P. cbn [bind]. exists t2, true. split; auto. split; auto. split; [|discriminate]. unfold rgs. rewrite E2, map_app. cbn [map]. rewrite K2. fold (rgs t1). now rewrite R1.
  - exists t1, lg. auto.
Qed.
Lemma complement_ok : forall cs l, repr cs l -> immutable_p cs = false ->
  exists cs' l', complement cs = Ok cs' /\ repr cs' l' /\ immutable_p cs' = false /\ forall c, char c -> (holds cs' l' c <-> ~ holds cs l c).
Proof.
  intros cs l (L & M & G & Lg & R) Im. unfold complement. rewrite Im.
  destruct (bits_operate_partial (wds cs) 0 BNot1 0 0 0 SMALL_CHARS) as (w & E & Mw & Lw & A1 & A2 & _); auto; try (unfold SMALL_CHARS; lia).
  { unfold array. unfold SMALL_CHARS. lia. } { intros _. unfold array. unfold SMALL_CHARS. lia. } { discriminate. }
  rewrite E. cbn [bind]. unfold tree_of. destruct (lrg cs) as [t|v]; [|destruct R; congruence]. destruct R as (I & Rg & _). cbn [bind]. rewrite <- Rg in G.
  destruct (complement_large_ok t I G) as (t' & b & C & I' & R' & Lb). rewrite C. cbn [bind fst snd]. destruct (compl_all_ok (rgs t) G) as [G' Cv]. rewrite <- R', Rg in Cv. rewrite <- R' in G'.
  destruct (set_large_facts (mkcs w (LTree t')) b ltac:(cbn [wds]; lia) Mw) as (L2 & M2 & Lp & Ip & Lr & At). cbn [wds lrg] in *.
  assert (Imw : immutable_p (mkcs w (LTree t')) = false). { rewrite immutable_at. cbn [wds]. unfold at_. rewrite A2; [|unfold SMALL_CHARS; change (64 * ((128 + 63) / 64))%nat with 128%nat; lia]. rewrite immutable_at in Im. exact Im. }
  exists (set_large (mkcs w (LTree t')) b), (rgs t'). split; auto. split; [|split; [congruence|]].
  - split; auto. split; auto. split; auto. rewrite Lp. split; auto. rewrite Lr. split; auto. split; auto. rewrite Ip, Imw. discriminate.
  - intros c Hc. unfold char in Hc. unfold holds. destruct (Z.ltb_spec c 128).
    + rewrite At by lia. rewrite A1 by (unfold SMALL_CHARS; lia). cbn [bool_op]. destruct (at_ (wds cs) 0 (Z.to_nat c)); cbn [negb]; split; congruence.
    + apply Cv. lia.
Qed.

(** *** membership *)
Lemma near_tree : forall t lo hi, tinv t -> gapped 128 (rgs t) -> lo <= hi -> exists a m b, els t = a ++ m ++ b /\ core_near ccmp t lo = (hd_error m, hd_error (rev a), hd_error b) /\
  (near_in (map kv a) (option_map kv (hd_error m)) hi = true <-> inside (rgs t) lo hi) /\ (hd_error m <> None -> exists e, hd_error m = Some e /\ e_key e = lo /\ In (kv e) (rgs t)).
Proof.
  intros t lo hi I G H. destruct (near_spec t lo I) as (a & m & b & E & A & B & C & N). exists a, m, b. split; auto. split; auto.
  assert (R : rgs t = map kv a ++ match option_map kv (hd_error m) with Some e => [e] | None => [] end ++ map kv b). { unfold rgs. rewrite E, !map_app. destruct C as [->|(e & -> & _)]; reflexivity. }
  split.
  - rewrite R in *. apply near_inside; auto; [apply klt_map; auto|apply kgt_map; auto|]. destruct C as [->|(e & -> & K)]; cbn; auto.
  - intros Hm. destruct C as [->|(e & -> & K)]; [cbn in Hm; congruence|]. exists e. split; auto. split; auto. unfold rgs. rewrite E. apply in_map. apply in_elt.
Qed.
Lemma near_vec : forall l lo hi, gapped 128 l -> lo <= hi -> exists r, bsearch (flatten l) lo = Ok r /\
  match r with
  | Found k => exists v, nth_error (flatten l) (k + 1) = Some v /\ In (lo, v) l /\ (hi <= v <-> inside l lo hi)
  | NotFound (Some k) => exists v, nth_error (flatten l) (k + 1) = Some v /\ (hi <= v <-> inside l lo hi)
  | NotFound None => ~ inside l lo hi
  end.
Proof.
  intros l lo hi G H. destruct (bsearch_ok l 128 lo G) as (r & E & Sp). exists r. split; auto.
  assert (Split : forall i p, nth_error l i = Some p -> exists a b, l = a ++ p :: b /\ length a = i) by (intros; now apply nth_error_split).
  assert (Ord : forall i p a b, nth_error l i = Some p -> l = a ++ p :: b -> length a = i -> Forall (fun r => fst r < fst p) a /\ forall k, (forall j, (i < j < length l)%nat -> k < key_at l j) -> Forall (fun r => k < fst r) b).
  { intros i p a b Ni El Li. split.
    - apply Forall_forall. intros x Hx. apply In_nth_error in Hx. destruct Hx as [j Hj]. assert (j < length a)%nat by (apply nth_error_Some; congruence). apply (gapped_nth l 128 j i); auto; [lia|]. rewrite El, nth_error_app1 by lia. auto.
    - intros k Hk. apply Forall_forall. intros x Hx. apply In_nth_error in Hx. destruct Hx as [j Hj]. assert (j < length b)%nat by (apply nth_error_Some; congruence).
      assert (Nx : nth_error l (i + 1 + j) = Some x). { rewrite El, nth_error_app2 by lia. replace (i + 1 + j - length a)%nat with (S j) by lia. exact Hj. }
      specialize (Hk (i + 1 + j)%nat). unfold key_at in Hk. rewrite Nx in Hk. apply Hk. rewrite El, app_length. cbn [length]. lia. }
  destruct r as [k|[k|]]; cbn [bs_spec] in Sp.
  - destruct Sp as (i & -> & Hi & K). destruct (nth_error l i) as [[x v]|] eqn:Ni; [|apply nth_error_None in Ni; lia]. unfold key_at in K. rewrite Ni in K. cbn [fst] in K. subst x.
    exists v. rewrite flatten_odd, Ni. split; auto. split; [eapply nth_error_In; eauto|]. destruct (Split i _ Ni) as (a & b & El & La). destruct (Ord i _ a b Ni El La) as [A B]. cbn [fst] in A.
    assert (Bk : Forall (fun r => lo < fst r) b). { apply B. intros j Hj. pose proof (key_at_lt l 128 i j G ltac:(lia)) as Q. unfold key_at at 1 in Q. now rewrite Ni in Q. }
    assert (Gx : gapped 128 (a ++ [(lo, v)] ++ b)) by (cbn [app]; rewrite <- El; auto).
    pose proof (near_inside a (Some (lo, v)) b lo hi Gx A Bk eq_refl H) as Q. cbn [near_in app] in Q. rewrite <- El in Q. rewrite Z.leb_le in Q. exact Q.
  - destruct Sp as (i & -> & Hi & K & Up). destruct (nth_error l i) as [[x v]|] eqn:Ni; [|apply nth_error_None in Ni; lia]. unfold key_at in K. rewrite Ni in K. cbn [fst] in K.
    exists v. rewrite flatten_odd, Ni. split; auto. destruct (Split i _ Ni) as (a & b & El & La). destruct (Ord i _ a b Ni El La) as [A B]. cbn [fst] in A. specialize (B lo Up).
    assert (El2 : l = (a ++ [(x, v)]) ++ b) by (rewrite <- app_assoc; auto).
    assert (Gx : gapped 128 ((a ++ [(x, v)]) ++ [] ++ b)) by (cbn [app]; rewrite <- El2; auto).
    assert (Ax : Forall (fun r => fst r < lo) (a ++ [(x, v)])). { apply Forall_app. split; [eapply Forall_impl; [|exact A]; cbn; intros; lia|constructor; auto]. }
    pose proof (near_inside (a ++ [(x, v)]) None b lo hi Gx Ax B Logic.I H) as Q. unfold near_in in Q. rewrite rev_app_distr in Q. cbn [rev app hd_error] in Q. rewrite <- El2 in Q. rewrite Z.leb_le in Q. exact Q.
  - intros (u & v & Hin & Hu & _). apply In_nth_error in Hin. destruct Hin as [j Hj]. assert (j < length l)%nat by (apply nth_error_Some; congruence). specialize (Sp j ltac:(auto)). unfold key_at in Sp. rewrite Hj in Sp. cbn [fst] in Sp. lia.
Qed.
Lemma inside_point : forall l c, inside l c c <-> covers l c.
Proof. intros. unfold inside, covers. split; intros (x & y & H & R); exists x, y; (split; [auto|lia]). Qed.
Lemma contains_ok : forall cs l c, repr cs l -> exists b, contains cs c = Ok b /\ (b = true <-> char c /\ holds cs l c).
Proof.
  intros cs l c (L & M & G & Lg & R). unfold contains, char, holds. destruct (Z.ltb_spec c 0); [exists false; split; auto; split; [discriminate|lia]|]. destruct (Z.ltb_spec c 128).
  - rewrite bits_test_ok; auto; [|lia]. eexists. split; [reflexivity|]. split; [split; [lia|auto]|tauto].
  - assert (Cm : forall b : bool, (b = true <-> covers l c) -> b = true <-> 0 <= c <= MAX /\ covers l c). { intros b Hb. rewrite Hb. split; [intros Hx; split; auto; apply (covers_ge _ _ _ G) in Hx; lia|tauto]. }
    destruct (immutable_p cs) eqn:Im.
    + assert (V : vec_of cs = Ok (flatten l)). { unfold vec_of. destruct (lrg cs) as [t|v]; [|destruct R as [-> _]; auto]. destruct R as (I & Rg & Hl). rewrite (Hl eq_refl) in *. unfold rgs, els in Rg. destruct (root t) as [|cc a i k vv b]; [reflexivity|]. cbn [elements] in Rg. rewrite map_app in Rg. destruct (map kv (elements a)); discriminate. }
      rewrite V. cbn [bind]. destruct (Nat.eqb_spec (length (flatten l)) 2).
      * rewrite flatten_len in *. destruct l as [|[x y] [|]]; cbn [length] in *; try lia. cbn [flatten nth_error of_opt bind]. eexists. split; [reflexivity|]. apply Cm. rewrite andb_true_iff, !Z.leb_le, covers_cons, covers_nil. tauto.
      * destruct (near_vec l c c G ltac:(lia)) as (r & E & Sp). rewrite E. cbn [bind]. destruct r as [k|[k|]].
        -- destruct Sp as (v & _ & Hin & _). exists true. split; auto. apply Cm. split; auto. intros _. exists c, v. split; auto. apply gapped_all in G. rewrite Forall_forall in G. apply G in Hin. cbn in Hin. lia.
        -- destruct Sp as (v & -> & Hv). cbn [of_opt bind]. eexists. split; [reflexivity|]. apply Cm. rewrite Z.leb_le, Hv. apply inside_point.
        -- exists false. split; auto. apply Cm. split; [discriminate|]. intros Hx. apply inside_point in Hx. contradiction.
    + unfold tree_of. destruct (lrg cs) as [t|v]; [|destruct R; congruence]. destruct R as (I & Rg & _). cbn [bind]. rewrite <- Rg in G. destruct (near_tree t c c I G ltac:(lia)) as (a & m & b & E & N & Sp & Hm). rewrite N. eexists. split; [reflexivity|]. apply Cm. rewrite <- Rg, <- inside_point. destruct (hd_error m) as [e|].
      * split; auto. intros _. destruct (Hm ltac:(discriminate)) as (e' & Ee & Ke & Hin). inversion Ee; subst e'. exists (e_key e), (e_val e). split; auto. pose proof G as Ga. apply gapped_all in Ga. rewrite Forall_forall in Ga. apply Ga in Hin. unfold kv in Hin. cbn in Hin. lia.
      * rewrite <- Sp. cbn [near_in option_map]. rewrite <- map_rev. destruct (rev a) as [|x r]; cbn [map hd_error]; [tauto|]. reflexivity.
Qed.

(** *** comparison *)
Lemma ranges_eq_iff : forall a b, ranges_eq a b = true <-> a = b.
Proof.
  induction a as [|[x y] a IH]; intros [|[u v] b]; cbn [ranges_eq]; try (split; [discriminate|intros; discriminate]); [tauto|].
  destruct (Z.eqb_spec x u), (Z.eqb_spec y v); cbn [andb negb]; try (split; [discriminate|intros X; inversion X; subst; contradiction]). subst. rewrite IH. split; [now intros ->|intros X; now inversion X].
Qed.
Lemma full_of : forall t, gapped 128 (rgs t) -> full (els t).
Proof.
  intros t G. apply gapped_all in G. unfold rgs in G. rewrite Forall_map in G. eapply Forall_impl; [|exact G]. intros [[i k] v] H X. cbn in H, X. subst v. cbn in H. lia.
Qed.
Lemma kvs_rgs : forall a b : core Z Z, full (els a) -> full (els b) -> (kvs (els a) = kvs (els b) <-> rgs a = rgs b).
Proof.
  intros a b. unfold rgs. generalize (els a) (els b). clear a b. induction l as [|[[i k] v] l IH]; intros [|[[j q] w] l'] Fa Fb; cbn [kvs map]; try (split; [discriminate|intros; discriminate]); [tauto|].
  inversion Fa; subst. inversion Fb; subst. cbn [snd] in *. unfold kvs in IH. destruct v as [v|]; [|congruence]. destruct w as [w|]; [|congruence]. specialize (IH l' ltac:(auto) ltac:(auto)). unfold kv at 1 3, ekey, e_key, e_val. cbn [fst snd]. split; intros X; inversion X; subst; f_equal; apply IH; auto.
Qed.
Definition veqz (a b : option Z) : bool := match a, b with Some x, Some y => x =? y | None, None => true | _, _ => false end.
Lemma eq_loop_ext : forall f1 f2 fuel (a b : core Z Z) ia ib,
  (forall x y, In x (els a) -> In y (els b) -> f1 (snd x) (snd y) = f2 (snd x) (snd y)) ->
  core_eq_loop Z.eqb f1 fuel a b ia ib = core_eq_loop Z.eqb f2 fuel a b ia ib.
Proof.
  intros f1 f2. induction fuel as [|f IH]; intros a b ia ib H; cbn [core_eq_loop]; auto. destruct (it_c (iter_next a ia)) as [x|]; auto. destruct (it_c (iter_next b ib)) as [y|]; auto.
  assert (Nin : forall (t : core Z Z) n e, node_at t n = Some e -> In e (els t)).
  { intros t n e. unfold node_at. pose proof (locate_spec n (root t) Top) as Q. destruct (locate n (root t) Top) as [c l i k v r p|]; [|discriminate]. intros X. inversion X; subst. destruct Q as [Q _]. cbn [zip] in Q. unfold els. rewrite <- Q. rewrite elements_zip. cbn [elements]. rewrite <- !app_assoc. apply in_or_app. right. apply in_or_app. right. left. reflexivity. }
  destruct (node_at a x) as [[[i1 k1] v1]|] eqn:N1; auto. destruct (node_at b y) as [[[i2 k2] v2]|] eqn:N2; auto. apply Nin in N1. apply Nin in N2. pose proof (H _ _ N1 N2) as Q. cbn [snd] in Q. rewrite Q. destruct (negb (k1 =? k2) || negb (f2 v1 v2)); auto.
Qed.
Lemma same_core : forall x y lx ly, repr x lx -> repr y ly -> immutable_p x = false -> immutable_p y = false ->
  exists b, (do tx <- tree_of x; do ty <- tree_of y; of_opt (core_eq Z.eqb optz_eqb (S (Z.to_nat (num_entries tx))) tx ty)) = Ok b /\ (b = true <-> lx = ly).
Proof.
  intros x y lx ly (_ & _ & Gx & _ & Rx) (_ & _ & Gy & _ & Ry) Ix Iy. unfold tree_of. destruct (lrg x) as [tx|]; [|destruct Rx; congruence]. destruct (lrg y) as [ty|]; [|destruct Ry; congruence]. destruct Rx as (Hx & Ex & _), Ry as (Hy & Ey & _). cbn [bind]. subst lx ly.
  destruct (core_eq_ok ccmp Z.eqb veqz tx ty (S (Z.to_nat (num_entries tx)))) as (r & E & Hr); auto.
  - intros. apply Z.eqb_eq. - intros [u|] [v|]; cbn; try (split; congruence). rewrite Z.eqb_eq. split; congruence.
  - rewrite num_els, Nat2Z.id by auto. unfold els. lia.
  - exists r. pose proof (full_of tx Gx) as Fx. pose proof (full_of ty Gy) as Fy. split; [|rewrite Hr; apply kvs_rgs; auto].
    replace (core_eq Z.eqb optz_eqb (S (Z.to_nat (num_entries tx))) tx ty) with (core_eq Z.eqb veqz (S (Z.to_nat (num_entries tx))) tx ty); [now rewrite E|].
    unfold core_eq. destruct (negb (num_entries tx =? num_entries ty)); auto. apply eq_loop_ext. intros u v Hu Hv. unfold full in Fx, Fy. rewrite Forall_forall in Fx, Fy. apply Fx in Hu. apply Fy in Hv. destruct (snd u), (snd v); try congruence. reflexivity.
Qed.
Lemma eq_ok : forall x y lx ly, repr x lx -> repr y ly -> exists b, char_set_eq x y = Ok b /\ (b = true <-> forall c, char c -> (holds x lx c <-> holds y ly c)).
Proof.
  intros x y lx ly Rx Ry. pose proof Rx as (L1 & M1 & G1 & _). pose proof Ry as (L2 & M2 & G2 & _). unfold char_set_eq.
  destruct (bits_equal_partial (wds x ++ wds y) 0 3 0 SMALL_CHARS) as (r & E & Hr); auto using memory_app; try (unfold array; rewrite ?app_length; unfold SMALL_CHARS; lia).
  rewrite E. cbn [bind]. assert (Hs : r = true <-> forall c, 0 <= c < 128 -> (holds x lx c <-> holds y ly c)).
  { rewrite Hr. split.
    - intros H c Hc. unfold holds. destruct (Z.ltb_spec c 128); [|lia]. specialize (H (Z.to_nat c)). rewrite at_left, at_right in H by lia. rewrite H; [tauto|unfold SMALL_CHARS; lia].
    - intros H i Hi. unfold SMALL_CHARS in Hi. rewrite at_left, at_right by lia. specialize (H (Z.of_nat i) ltac:(lia)). unfold holds in H. destruct (Z.ltb_spec (Z.of_nat i) 128); [|lia]. rewrite Nat2Z.id in H. destruct (at_ (wds x) 0 i), (at_ (wds y) 0 i); auto; [symmetry; apply H; auto|apply H; auto]. }
  assert (Hl : lx = ly <-> forall c, 128 <= c <= MAX -> (holds x lx c <-> holds y ly c)).
  { split; [intros -> c Hc; unfold holds; destruct (Z.ltb_spec c 128); [lia|tauto]|]. intros H. apply (gapped_canonical lx ly 128); auto. intros c Hc. specialize (H c Hc). unfold holds in H. destruct (Z.ltb_spec c 128); [lia|auto]. }
  assert (Both : forall b : bool, r = true -> (b = true <-> lx = ly) -> (b = true <-> forall c, char c -> (holds x lx c <-> holds y ly c))).
  { intros b Tr Hb. rewrite Hb, Hl. rewrite Hs in Tr. unfold char. split; intros H c Hc; [destruct (Z_lt_dec c 128); [apply Tr; lia|apply H; lia]|apply H; lia]. }
  destruct r; cbn [negb].
  - destruct (immutable_p x) eqn:Ix, (immutable_p y) eqn:Iy; cbn [negb andb];
    try (rewrite (iter_ranges_ok x lx Rx), (iter_ranges_ok y ly Ry); cbn [bind]; eexists; split; [reflexivity|]; apply Both; auto; apply ranges_eq_iff).
    destruct (same_core x y lx ly Rx Ry Ix Iy) as (b & Eb & Hb). exists b. split; auto.
  - exists false. split; auto. split; [discriminate|]. intros H. apply Hs. intros c Hc. apply H. unfold char. lia.
Qed.
Lemma contains_range_ok : forall s l lo hi, repr s l -> lo <= hi -> exists b, contains_range s lo hi = Ok b /\ (b = true <-> inside l lo hi).
Proof.
  intros s l lo hi (L & M & G & Lg & R) H. unfold contains_range. destruct (large_p s); cbn [negb]; [|exists false; split; auto; rewrite Lg by auto; split; [discriminate|intros (? & ? & [] & _)]].
  destruct (immutable_p s) eqn:Im.
  - assert (V : vec_of s = Ok (flatten l)). { unfold vec_of. destruct (lrg s) as [t|v]; [|destruct R as [-> _]; auto]. destruct R as (I & Rg & Hl). rewrite (Hl eq_refl) in *. unfold rgs, els in Rg. destruct (root t) as [|cc a i k vv b]; [reflexivity|]. cbn [elements] in Rg. rewrite map_app in Rg. destruct (map kv (elements a)); discriminate. }
    rewrite V. cbn [bind]. destruct (near_vec l lo hi G H) as (r & E & Sp). rewrite E. cbn [bind]. destruct r as [k|[k|]].
    + destruct Sp as (v & -> & _ & Hv). cbn [of_opt bind]. eexists. split; [reflexivity|]. rewrite <- Hv, negb_true_iff, Z.ltb_ge. tauto.
    + destruct Sp as (v & -> & Hv). cbn [of_opt bind]. eexists. split; [reflexivity|]. rewrite <- Hv, negb_true_iff, Z.ltb_ge. tauto.
    + exists false. split; auto. split; [discriminate|tauto].
  - unfold tree_of. destruct (lrg s) as [t|v]; [|destruct R; congruence]. destruct R as (I & Rg & _). cbn [bind]. rewrite <- Rg in *. destruct (near_tree t lo hi I G H) as (a & m & b & E & N & Sp & Hm). rewrite N. eexists. split; [reflexivity|]. rewrite <- Sp. clear. unfold near_in. destruct (hd_error m) as [e|]; cbn [option_map].
    + unfold kv. cbn [snd]. rewrite negb_true_iff, Z.ltb_ge, Z.leb_le. tauto.
    + rewrite <- map_rev. destruct (rev a) as [|x r]; cbn [map hd_error]; [tauto|]. unfold kv. rewrite negb_true_iff, Z.ltb_ge, Z.leb_le. tauto.
Qed.
Lemma le_loop_ok : forall q y ly, repr y ly -> Forall (fun r => fst r <= snd r) q -> exists b, le_loop y q = Ok b /\ (b = true <-> forall c, covers q c -> covers ly c).
Proof.
  induction q as [|[lo hi] q IH]; intros y ly R F; cbn [le_loop].
  - exists true. split; auto. split; auto. intros _ c Hc. apply covers_nil in Hc. tauto.
  - inversion F; subst. cbn [fst snd] in *. destruct (contains_range_ok y ly lo hi R ltac:(auto)) as (b & E & Hb). rewrite E. cbn [bind]. rewrite (inside_iff ly 128) in Hb by (auto; apply R). destruct b; cbn [negb].
    + destruct (IH y ly R ltac:(auto)) as (b & E2 & Hb2). exists b. split; auto. rewrite Hb2. split; intros X c Hc.
      * apply covers_cons in Hc. destruct Hc; [apply Hb; auto|auto]. * apply X. apply covers_cons. auto.
    + exists false. split; auto. split; [discriminate|]. intros X. apply Hb. intros c Hc. apply X. apply covers_cons. auto.
Qed.
Lemma le_ok : forall x y lx ly, repr x lx -> repr y ly -> exists b, char_set_le x y = Ok b /\ (b = true <-> forall c, char c -> holds x lx c -> holds y ly c).
Proof.
  intros x y lx ly Rx Ry. pose proof Rx as (L1 & M1 & G1 & _). pose proof Ry as (L2 & M2 & G2 & _). unfold char_set_le.
  destruct (bits_includes_partial (wds y ++ wds x) 0 3 0 SMALL_CHARS) as (r & E & Hr); auto using memory_app; try (unfold array; rewrite ?app_length; unfold SMALL_CHARS; lia).
  rewrite E. cbn [bind]. assert (Hs : r = true <-> forall c, 0 <= c < 128 -> holds x lx c -> holds y ly c).
  { rewrite Hr. split.
    - intros H c Hc. unfold holds. destruct (Z.ltb_spec c 128); [|lia]. specialize (H (Z.to_nat c)). rewrite at_left, at_right in H by lia. intros; apply H; auto. unfold SMALL_CHARS; lia.
    - intros H i Hi. unfold SMALL_CHARS in Hi. rewrite at_left, at_right by lia. specialize (H (Z.of_nat i) ltac:(lia)). unfold holds in H. destruct (Z.ltb_spec (Z.of_nat i) 128); [|lia]. rewrite Nat2Z.id in H. auto. }
  destruct r; cbn [negb].
  - rewrite (iter_ranges_ok x lx Rx). cbn [bind]. destruct (le_loop_ok lx y ly Ry) as (b & E2 & Hb). { eapply Forall_impl; [|apply (gapped_all _ _ G1)]. cbn. intros; lia. }
    exists b. split; auto. rewrite Hb. split.
    + intros X c Hc Hh. destruct (Z_lt_dec c 128); [apply Hs; auto; unfold char in Hc; lia|]. unfold holds in *. destruct (Z.ltb_spec c 128); [lia|auto].
    + intros X c Hc. pose proof (covers_ge _ _ _ G1 Hc). specialize (X c). unfold char, holds in X. destruct (Z.ltb_spec c 128); [lia|]. apply X; auto. lia.
  - exists false. split; auto. split; [discriminate|]. intros H. apply Hs. intros c Hc. apply H. unfold char. lia.
Qed.
