From Coq Require Import ZArith List Bool Arith Lia Sorting.Sorted.
From Verif Require Import Outcome BitsModel BitsSpec BitsProofs BitsProofs2 BitsProofs3 BitsProps TreeModel TreeApi TreeSpec TreeProofs TreeProofs2 TreeProofs3 TreeProofs4 CharsetModel CharsetSpec CharsetProofs CharsetProofs2.
Import ListNotations.
Local Open Scope Z_scope.
Ltac Zify.zify_post_hook ::= idtac.

(** [repr cs l]: cs is well-formed and l is the list of its ranges from 128 up *)
Definition repr (cs : charset) (l : list (Z * Z)) : Prop :=
  length (wds cs) = 3%nat /\ memory (wds cs) /\ gapped 128 l /\ (large_p cs = false -> l = []) /\
  match lrg cs with
  | LTree t => tinv t /\ rgs t = l /\ (immutable_p cs = true -> l = [])
  | LFrozen v => v = flatten l /\ immutable_p cs = true
  end.
Definition holds (cs : charset) (l : list (Z * Z)) (c : Z) : Prop :=
  if c <? 128 then at_ (wds cs) 0 (Z.to_nat c) = true else covers l c.

(** *** words *)
Lemma wds3 : forall w : list Z, length w = 3%nat -> exists a b f, w = [a; b; f].
Proof. intros [|a [|b [|f [|]]]] H; try discriminate. eauto. Qed.
Lemma at_flags : forall w i, (i < 64)%nat -> at_ w 0 (128 + i) = Z.testbit (nth 2 w 0) (Z.of_nat i).
Proof. intros w i Hi. unfold at_, bit. replace (64 * 0 + (128 + i))%nat with (64 * 2 + i)%nat by lia. rewrite div_qr, mod_qr by lia. reflexivity. Qed.
Lemma large_at : forall cs, large_p cs = at_ (wds cs) 0 128.
Proof. intros. change 128%nat with (128 + 0)%nat. rewrite at_flags by lia. reflexivity. Qed.
Lemma immutable_at : forall cs, immutable_p cs = at_ (wds cs) 0 129.
Proof. intros. change 129%nat with (128 + 1)%nat. rewrite at_flags by lia. reflexivity. Qed.
Lemma at_small : forall a b f g i, (i < 128)%nat -> at_ [a; b; f] 0 i = at_ [a; b; g] 0 i.
Proof.
  intros a b f g i Hi. unfold at_, bit. replace (64 * 0 + i)%nat with i by lia. destruct (split64 i) as (q & r & E1 & E2 & E3 & Hr). rewrite E1, E2. assert (q = 0 \/ q = 1)%nat as [-> | ->] by lia; reflexivity.
Qed.
Lemma small_z : forall c, 0 <= c < 128 -> (Z.to_nat c < 128)%nat. Proof. intros. lia. Qed.
Lemma testbit_small : forall f i, 0 <= i -> Z.testbit f i = Z.testbit f i. Proof. auto. Qed.
Lemma flag_word : forall f, word f -> word (Z.lor f 1) /\ word (Z.land f (cpl 1)) /\ word (Z.lor f 2).
Proof.
  intros f H. split; [|split].
  - apply word_lor; auto. split; lia. - apply word_land; auto. vm_compute. discriminate. - apply word_lor; auto. split; lia.
Qed.
(** set_flags keeps everything but the flags *)
Lemma set_flags_facts : forall cs f, length (wds cs) = 3%nat -> memory (wds cs) -> word f ->
  length (wds (set_flags cs f)) = 3%nat /\ memory (wds (set_flags cs f)) /\ flags (set_flags cs f) = f /\ lrg (set_flags cs f) = lrg cs /\
  forall i, (i < 128)%nat -> at_ (wds (set_flags cs f)) 0 i = at_ (wds cs) 0 i.
Proof.
  intros [w l] f L M W. cbn [wds lrg] in *. destruct (wds3 w L) as (a & b & g & ->). unfold set_flags, flags. cbn [wds lrg firstn app nth length]. split; auto. inversion M as [|? ? M1 M2]; subst. inversion M2 as [|? ? M3 M4]; subst. split; [constructor; auto; constructor; auto; constructor; auto|]. split; auto. split; auto. intros i Hi. now apply at_small.
Qed.
Lemma set_large_facts : forall cs b, length (wds cs) = 3%nat -> memory (wds cs) ->
  length (wds (set_large cs b)) = 3%nat /\ memory (wds (set_large cs b)) /\ large_p (set_large cs b) = b /\ immutable_p (set_large cs b) = immutable_p cs /\ lrg (set_large cs b) = lrg cs /\
  forall i, (i < 128)%nat -> at_ (wds (set_large cs b)) 0 i = at_ (wds cs) 0 i.
Proof.
  intros cs b L M. assert (W : word (flags cs)) by (apply nth_word; auto). destruct (flag_word _ W) as (W1 & W2 & _).
  destruct (set_flags_facts cs (if b then Z.lor (flags cs) 1 else Z.land (flags cs) (cpl 1)) L M) as (A & B & C & D & F); [destruct b; auto|]. fold (set_large cs b) in A, B, C, D, F.
  split; auto. split; auto. unfold large_p, immutable_p. rewrite C. split; [|split; [|split; auto]].
  - destruct b; [rewrite Z.lor_spec; apply orb_true_r|rewrite Z.land_spec; apply andb_false_r].
  - destruct b; [rewrite Z.lor_spec; change (Z.testbit 1 1) with false; apply orb_false_r|rewrite Z.land_spec; change (Z.testbit (cpl 1) 1) with true; apply andb_true_r].
Qed.
Lemma set_immutable_facts : forall cs, length (wds cs) = 3%nat -> memory (wds cs) ->
  length (wds (set_immutable cs)) = 3%nat /\ memory (wds (set_immutable cs)) /\ large_p (set_immutable cs) = large_p cs /\ immutable_p (set_immutable cs) = true /\ lrg (set_immutable cs) = lrg cs /\
  forall i, (i < 128)%nat -> at_ (wds (set_immutable cs)) 0 i = at_ (wds cs) 0 i.
Proof.
  intros cs L M. assert (W : word (flags cs)) by (apply nth_word; auto). destruct (flag_word _ W) as (_ & _ & W1).
  destruct (set_flags_facts cs (Z.lor (flags cs) 2) L M W1) as (A & B & C & D & F). fold (set_immutable cs) in A, B, C, D, F.
  split; auto. split; auto. unfold large_p, immutable_p. rewrite C. split; [|split; [|split; auto]].
  - rewrite Z.lor_spec. change (Z.testbit 2 0) with false. apply orb_false_r.
  - rewrite Z.lor_spec. apply orb_true_r.
Qed.
(** two sets in one memory *)
Lemma at_left : forall x y i, (i < 64 * length x)%nat -> at_ (x ++ y) 0 i = at_ x 0 i.
Proof. intros x y i H. unfold at_, bit. replace (64 * 0 + i)%nat with i by lia. destruct (split64 i) as (q & r & E1 & E2 & E3 & Hr). rewrite E1. rewrite app_nth1; auto. lia. Qed.
Lemma at_right : forall x y i, length x = 3%nat -> at_ (x ++ y) 3 i = at_ y 0 i.
Proof. intros x y i L. unfold at_, bit. replace (64 * 3 + i)%nat with (i + 3 * 64)%nat by lia. rewrite Nat.div_add, Nat.mod_add by lia. rewrite app_nth2 by lia. rewrite L. replace (i / 64 + 3 - 3)%nat with (i / 64)%nat by lia. replace (64 * 0 + i)%nat with i by lia. reflexivity. Qed.
Lemma at_firstn : forall m i, (i < 192)%nat -> at_ (firstn 3 m) 0 i = at_ m 0 i.
Proof.
  intros m i H. unfold at_, bit. replace (64 * 0 + i)%nat with i by lia. destruct (split64 i) as (q & r & E1 & E2 & E3 & Hr). rewrite E1. f_equal. rewrite <- (firstn_skipn 3 m) at 2. destruct (lt_dec q (length (firstn 3 m))); [now rewrite app_nth1|].
  rewrite app_nth2 by lia. rewrite firstn_length in *. assert (length m <= 3)%nat by lia. rewrite skipn_all2 by lia. rewrite nth_overflow; [|rewrite firstn_length; lia]. now destruct (q - Nat.min 3 (length m))%nat.
Qed.
Lemma memory_app : forall x y, memory x -> memory y -> memory (x ++ y). Proof. intros. apply Forall_app; auto. Qed.
Lemma memory_firstn : forall x n, memory x -> memory (firstn n x). Proof. intros x n H. rewrite <- (firstn_skipn n x) in H. apply Forall_app in H. tauto. Qed.

(** *** make_charset *)
Lemma make_ok : exists cs, make_charset = Ok cs /\ repr cs [] /\ immutable_p cs = false /\ large_p cs = false /\ lrg cs = LTree core_init /\ forall i, (i < 128)%nat -> at_ (wds cs) 0 i = false.
Proof.
  exists (mkcs [0; 0; 0] (LTree core_init)). split; [reflexivity|]. split.
  - split; [reflexivity|]. split; [repeat constructor; lia|]. split; [exact I|]. split; [auto|]. cbn [lrg]. split; [|split; auto].
    destruct (good_init (K := Z) (V := Z) ccmp) as [A _]. exact A.
  - split; [reflexivity|]. split; [reflexivity|]. split; [reflexivity|]. intros i Hi. unfold at_, bit. cbn [wds]. destruct ((64 * 0 + i) / 64)%nat as [|[|[|[|]]]]; apply Z.testbit_0_l.
Qed.

(** *** iteration *)
Lemma tree_ranges_ok : forall t, tinv t -> tree_ranges t = Ok (rgs t).
Proof.
  intros t I. unfold tree_ranges. rewrite (drain_up t (els t) [] _ (S (Z.to_nat (num_entries t)))); auto.
  - apply (inv_ids _ _ I). - cbn [it_n]. apply (bound_id_ok t). - rewrite num_els, Nat2Z.id by auto. lia.
Qed.
Lemma iter_ranges_ok : forall cs l, repr cs l -> iter_ranges cs = Ok l.
Proof.
  intros cs l (L & M & G & Lg & R). unfold iter_ranges. destruct (large_p cs) eqn:E; cbn [negb]; [|now rewrite Lg].
  unfold vec_of, tree_of. destruct (lrg cs) as [t|v].
  - destruct R as (I & Rg & Im). destruct (immutable_p cs).
    + assert (Hl : l = []) by auto. rewrite Hl in Rg |- *. unfold rgs, els in Rg. destruct (root t) as [|c a i k vv b]; [reflexivity|]. cbn [elements] in Rg. rewrite map_app in Rg. destruct (map kv (elements a)); discriminate.
    + cbn [bind]. rewrite tree_ranges_ok; auto. now rewrite Rg.
  - destruct R as (-> & ->). cbn [bind]. apply pairs_flatten.
Qed.
(** the ranges of a set, whatever its flag says *)
Lemma src_ranges_ok : forall cs l, repr cs l -> (if immutable_p cs then do v <- vec_of cs; pairs v else do t <- tree_of cs; tree_ranges t) = Ok l.
Proof.
  intros cs l (L & M & G & Lg & R). unfold vec_of, tree_of. destruct (lrg cs) as [t|v].
  - destruct R as (I & Rg & Im). destruct (immutable_p cs).
    + assert (Hl : l = []) by auto. rewrite Hl in Rg |- *. unfold rgs, els in Rg. destruct (root t) as [|c a i k vv b]; [reflexivity|]. cbn [elements] in Rg. rewrite map_app in Rg. destruct (map kv (elements a)); discriminate.
    + cbn [bind]. rewrite tree_ranges_ok; auto. now rewrite Rg.
  - destruct R as (-> & ->). cbn [bind]. apply pairs_flatten.
Qed.
Lemma rgs_num : forall t, tinv t -> gapped 128 (rgs t) -> num_entries t < 2147483647 /\ num_entries t = Z.of_nat (length (rgs t)).
Proof. intros t I G. rewrite num_els by auto. unfold rgs in *. pose proof (gapped_length _ _ G ltac:(lia)). rewrite map_length in *. split; lia. Qed.

(** *** add_range *)
Definition same_small (a b : charset) : Prop := forall i, (i < 128)%nat -> at_ (wds a) 0 i = at_ (wds b) 0 i.
Lemma add_tree_ok : forall cs l from to, repr cs l -> immutable_p cs = false -> 128 <= from <= to -> to <= MAX ->
  exists cs' l', (let cs := set_large cs true in do t <- tree_of cs; do t' <- add_large t from to; Ok (set_lrg cs (LTree t'))) = Ok cs' /\ repr cs' l' /\ immutable_p cs' = false /\ same_small cs' cs /\
    forall c, covers l' c <-> covers l c \/ from <= c <= to.
Proof.
  intros cs l from to (L & M & G & Lg & R) Im F T. destruct (set_large_facts cs true L M) as (L' & M' & Lp & Ip & Lr & At). unfold tree_of. cbv zeta. rewrite Lr. destruct (lrg cs) as [t|v]; [|destruct R; congruence]. destruct R as (I & Rg & _). cbn [bind].
  rewrite <- Rg in G. destruct (rgs_num t I G) as [Nn _]. destruct (add_large_ok t from to I Nn ltac:(lia)) as (t' & pre & mid & post & A & I' & E & C & E').
  rewrite A. cbn [bind]. rewrite E in G. destruct (add_list_ok from to pre mid post F T G C) as [G' Cv]. rewrite <- E' in G', Cv. rewrite <- E, Rg in Cv.
  exists (set_lrg (set_large cs true) (LTree t')), (rgs t'). split; [reflexivity|]. split; [|split; [|split; [exact At|exact Cv]]].
  - split; [exact L'|]. split; [exact M'|]. split; [exact G'|]. unfold set_lrg, large_p, immutable_p, flags. cbn [wds lrg]. fold (flags (set_large cs true)). fold (large_p (set_large cs true)). rewrite Lp. split; [discriminate|]. split; auto. split; auto. fold (immutable_p (set_large cs true)). rewrite Ip, Im. discriminate.
  - exact (eq_trans Ip Im).
Qed.
Lemma fill_ok : forall cs l s e, repr cs l -> (s <= e <= 128)%nat ->
  exists w, bits_fill (wds cs) 0 s e true = Ok w /\ repr (set_wds cs w) l /\ immutable_p (set_wds cs w) = immutable_p cs /\ forall i, (i < 128)%nat -> at_ w 0 i = at_ (wds cs) 0 i || ((s <=? i) && (i <? e))%nat.
Proof.
  intros cs l s e (L & M & G & Lg & R) H. destruct (bits_fill_ok (wds cs) 0 s e true M ltac:(lia)) as (w & E & M' & L' & B). { rewrite L. assert (e / 64 <= 128 / 64)%nat by (apply Nat.div_le_mono; lia). change (128 / 64)%nat with 2%nat in *. lia. }
  assert (Fl : forall i, (i < 64)%nat -> at_ w 0 (128 + i) = at_ (wds cs) 0 (128 + i)). { intros i Hi. unfold at_. rewrite B. unfold range. destruct (Nat.ltb_spec (64 * 0 + (128 + i)) (64 * 0 + e)); [lia|]. now rewrite andb_false_r. }
  assert (Lp : large_p (set_wds cs w) = large_p cs) by (rewrite !large_at; apply (Fl 0%nat); lia).
  assert (Ip : immutable_p (set_wds cs w) = immutable_p cs) by (rewrite !immutable_at; apply (Fl 1%nat); lia).
  exists w. split; auto. split; [|split; auto].
  - split; [cbn [wds set_wds]; lia|]. split; [exact M'|]. split; [exact G|]. rewrite Lp, Ip. split; auto.
  - intros i Hi. unfold at_ at 1. rewrite B. unfold range. replace (64 * 0 + s)%nat with s by lia. replace (64 * 0 + i)%nat with i by lia. replace (64 * 0 + e)%nat with e by lia. destruct ((s <=? i) && (i <? e))%nat; [now rewrite orb_true_r|rewrite orb_false_r]. unfold at_. f_equal.
Qed.
Lemma add_range_ok : forall cs l from to, repr cs l -> immutable_p cs = false -> char from -> char to ->
  exists cs' l', add_range cs from to = Ok cs' /\ repr cs' l' /\ immutable_p cs' = false /\
    forall c, 0 <= c -> (holds cs' l' c <-> holds cs l c \/ from <= c <= to).
Proof.
  intros cs l from to R Im Cf Ct. unfold char in *. unfold add_range. rewrite Im. destruct (Z.ltb_spec to from).
  - exists cs, l. split; auto. split; auto. split; auto. intros c Hc. split; [tauto|]. intros [?|?]; [auto|lia].
  - destruct (Z.ltb_spec from 128).
    + destruct (Z.ltb_spec to 128).
      * destruct (fill_ok cs l (Z.to_nat from) (Z.to_nat to + 1) R ltac:(lia)) as (w & E & R' & Ip & At). rewrite E. cbn [bind]. exists (set_wds cs w), l. split; auto. split; auto. split; [congruence|].
        intros c Hc. unfold holds. destruct (Z.ltb_spec c 128); [|split; [auto|intros [?|?]; [auto|lia]]]. cbn [wds set_wds]. rewrite At by lia. rewrite orb_true_iff, andb_true_iff, Nat.leb_le, Nat.ltb_lt. split; (intros [?|?]; [auto|right; lia]).
      * destruct (fill_ok cs l (Z.to_nat from) SMALL_CHARS R ltac:(unfold SMALL_CHARS; lia)) as (w & E & R' & Ip & At). rewrite E. cbn [bind].
        destruct (add_tree_ok (set_wds cs w) l 128 to R') as (cs' & l' & A & R2 & Im2 & Sm & Cv); [congruence|lia|lia|]. exists cs', l'. split; [exact A|]. split; auto. split; auto.
        intros c Hc. unfold holds. destruct (Z.ltb_spec c 128).
        -- rewrite Sm by lia. cbn [wds set_wds]. rewrite At by lia. rewrite orb_true_iff, andb_true_iff, Nat.leb_le, Nat.ltb_lt. unfold SMALL_CHARS. split; (intros [?|?]; [auto|right; lia]).
        -- rewrite Cv. split; (intros [?|?]; [auto|right; lia]).
    + destruct (add_tree_ok cs l from to R Im) as (cs' & l' & A & R2 & Im2 & Sm & Cv); [lia|lia|]. exists cs', l'. split; [exact A|]. split; auto. split; auto.
      intros c Hc. unfold holds. destruct (Z.ltb_spec c 128).
      * rewrite Sm by lia. split; [auto|]. intros [?|?]; [auto|lia].
      * apply Cv.
Qed.

(** *** union *)
Lemma add_ranges_ok : forall q cs l b, repr cs l -> immutable_p cs = false -> gapped b q -> 0 <= b ->
  exists cs' l', add_ranges cs q = Ok cs' /\ repr cs' l' /\ immutable_p cs' = false /\
    forall c, 0 <= c -> (holds cs' l' c <-> holds cs l c \/ covers q c).
Proof.
  induction q as [|[x y] q IH]; intros cs l b R Im G Hb; cbn [add_ranges gapped] in *.
  - exists cs, l. split; auto. split; auto. split; auto. intros c Hc. rewrite covers_nil. tauto.
  - destruct G as (Gx & Gy & G). destruct (add_range_ok cs l x y R Im) as (c1 & l1 & A & R1 & Im1 & H1); [unfold char; lia|unfold char; lia|]. rewrite A. cbn [bind].
    destruct (IH c1 l1 (y + 2) R1 Im1 G ltac:(lia)) as (c2 & l2 & A2 & R2 & Im2 & H2). exists c2, l2. split; auto. split; auto. split; auto. intros c Hc. rewrite H2, H1, covers_cons by auto. tauto.
Qed.
Lemma repr_set_large : forall cs l b, repr cs l -> (b = false -> l = []) -> repr (set_large cs b) l /\ immutable_p (set_large cs b) = immutable_p cs /\ large_p (set_large cs b) = b /\ same_small (set_large cs b) cs.
Proof.
  intros cs l b (L & M & G & Lg & R) Hb. destruct (set_large_facts cs b L M) as (L' & M' & Lp & Ip & Lr & At). split; [|auto]. split; auto. split; auto. split; auto. rewrite Lp, Ip, Lr. auto.
Qed.
Lemma union_ok : forall dst src ld ls, repr dst ld -> repr src ls -> immutable_p dst = false ->
  exists cs' l', char_set_add false dst src = Ok cs' /\ repr cs' l' /\ immutable_p cs' = false /\
    forall c, 0 <= c -> (holds cs' l' c <-> holds dst ld c \/ holds src ls c).
Proof.
  intros dst src ld ls Rd Rs Im. unfold char_set_add. rewrite Im. cbv zeta.
  set (d1 := if large_p src then set_large dst true else dst).
  assert (D1 : repr d1 ld /\ immutable_p d1 = false /\ same_small d1 dst). { unfold d1. destruct (large_p src); [|split; [auto|split; [auto|intros i Hi; auto]]]. destruct (repr_set_large dst ld true Rd ltac:(discriminate)) as (A & B & _ & C). split; auto. split; [congruence|auto]. }
  destruct D1 as (R1 & Im1 & Sm1). destruct R1 as (L & M & G & Lg & R). destruct Rs as (Ls & Ms & Gs & Lgs & Rss) eqn:ERs. clear ERs.
  destruct (bits_operate_partial (wds d1 ++ wds src) 0 BIor 0 3 0 SMALL_CHARS) as (w & E & Mw & Lw & A1 & A2 & _); auto using memory_app; try (unfold SMALL_CHARS; lia).
  { unfold array. rewrite app_length. unfold SMALL_CHARS. lia. } { intros _. unfold array. rewrite app_length. unfold SMALL_CHARS. lia. } { intros _. unfold array. rewrite app_length. unfold SMALL_CHARS. lia. }
  { right. left. unfold SMALL_CHARS. change (64 * ((128 + 63) / 64))%nat with 128%nat. lia. }
  rewrite E. cbn [bind]. rewrite src_ranges_ok with (l := ls) by (split; auto). cbn [bind].
  set (d2 := set_wds d1 (firstn 3 w)). rewrite app_length in Lw.
  assert (Fl : forall i, (i < 64)%nat -> at_ (wds d2) 0 (128 + i) = at_ (wds d1) 0 (128 + i)). { intros i Hi. unfold d2, set_wds. cbn [wds]. rewrite at_firstn by lia. rewrite <- (at_left (wds d1) (wds src)) by lia. unfold at_ at 1. rewrite A2; [reflexivity|]. unfold SMALL_CHARS. change (64 * ((128 + 63) / 64))%nat with 128%nat. lia. }
  assert (Lp : large_p d2 = large_p d1) by (rewrite !large_at; apply (Fl 0%nat); lia).
  assert (Ip : immutable_p d2 = immutable_p d1) by (rewrite !immutable_at; apply (Fl 1%nat); lia).
  assert (R2 : repr d2 ld). { split; [unfold d2, set_wds; cbn [wds]; rewrite firstn_length; lia|]. split; [apply memory_firstn; auto|]. split; auto. rewrite Lp, Ip. split; auto. }
  destruct (add_ranges_ok ls d2 ld 128 R2 ltac:(congruence) Gs ltac:(lia)) as (c3 & l3 & A3 & R3 & Im3 & H3). exists c3, l3. split; auto. split; auto. split; auto.
  intros c Hc. rewrite H3 by auto. unfold holds. destruct (Z.ltb_spec c 128).
  - assert (Q : at_ (wds d2) 0 (Z.to_nat c) = at_ (wds dst) 0 (Z.to_nat c) || at_ (wds src) 0 (Z.to_nat c)). { unfold d2, set_wds. cbn [wds]. rewrite at_firstn by lia. rewrite A1 by (unfold SMALL_CHARS; lia). cbn [bool_op]. rewrite at_left by lia. rewrite at_right by auto. rewrite Sm1 by lia. reflexivity. }
    rewrite Q, orb_true_iff. split; [intros [?|Hx]; [auto|apply (covers_ge _ _ _ Gs) in Hx; lia]|tauto].
  - tauto.
Qed.
