(** Lists, vectors and quotations: the writer's stack machine against the reader *)
From Coq Require Import List Bool ZArith Lia String.
From Verif Require Import Outcome BignumModel IntModel IntSpec IntTextModel IntTextSpec IntTextProofs RwModel RwSpec RwProofs RwProofs2 RwProofs3.
Import ListNotations.
Local Open Scope list_scope.
Local Open Scope Z_scope.
Ltac Zify.zify_post_hook ::= idtac.
Opaque STACK_LIMIT.

Fixpoint size (d : datum) : nat :=
  match d with
  | DPair a b => S (size a + size b)%nat
  | DVec xs => S ((fix total (l : list datum) : nat := match l with [] => O | x :: t => (size x + total t)%nat end) xs)
  | _ => 1%nat
  end.
Fixpoint total (l : list datum) : nat := match l with [] => O | x :: t => (size x + total t)%nat end.
Lemma size_vec : forall xs, size (DVec xs) = S (total xs).
Proof. reflexivity. Qed.
Fixpoint deepest (l : list datum) : nat := match l with [] => O | x :: t => Nat.max (depth x) (deepest t) end.
Lemma depth_vec : forall xs, depth (DVec xs) = S (deepest xs).
Proof. reflexivity. Qed.
Lemma good_vec : forall gc xs, good gc (DVec xs) <-> Forall (good gc) xs.
Proof.
  intros gc xs. cbn [good]. induction xs as [|x xs IH]; [split; auto|]. split.
  - intros [A B]. constructor; auto. now apply IH.
  - intros F. inversion F; subst. split; auto. now apply IH.
Qed.
Lemma size_pos : forall d, (1 <= size d)%nat. Proof. destruct d; cbn [size]; lia. Qed.

Definition from (gc : Z -> cat) (n : nat) (st : wstate) (k : list frame) (out r : list Z) : Prop := forall g, (n <= g)%nat -> write_rec gc g st k out = Ok r.
(** writing [d] puts [t] *)
Definition writes (gc : Z -> cat) (t : list Z) (d : datum) : Prop :=
  exists N, forall k out r n, (Z.of_nat (List.length k + depth d) <= STACK_LIMIT) -> from gc n WNext k (out ++ t) r -> from gc (N + n) (W1 d) k out r.
Lemma write_rec_S : forall gc f st stack out, write_rec gc (S f) st stack out =
    match st with
    | W1 (DPair a d) =>
      match quote_prefix a d with
      | Some (p, x) => write_rec gc f (W1 x) stack (out ++ p)
      | None => if STACK_LIMIT <? Z.of_nat (S (List.length stack)) then Err
                else write_rec gc f (W1 a) (FList d :: stack) (out ++ [40])
      end
    | W1 (DVec (x :: xs)) =>
      if STACK_LIMIT <? Z.of_nat (S (List.length stack)) then Err
      else write_rec gc f (W1 x) (FVec xs :: stack) (out ++ [35; 40])
    | W1 a => do s <- write_atom gc a; write_rec gc f WNext stack (out ++ s)
    | WNext =>
      match stack with
      | [] => Ok out
      | FVec [] :: k => write_rec gc f WNext k (out ++ [41])
      | FVec (x :: xs) :: k => write_rec gc f (W1 x) (FVec xs :: k) (out ++ [32])
      | FList DNil :: k => write_rec gc f WNext k (out ++ [41])
      | FList (DPair a d) :: k => write_rec gc f (W1 a) (FList d :: k) (out ++ [32])
      | FList (DVec xs) :: k =>
        do s <- write_rec gc f (W1 (DVec xs)) [] []; write_rec gc f WNext k (out ++ zs " . " ++ s ++ [41])
      | FList v :: k => write_rec gc f (W1 v) (FList DNil :: k) (out ++ zs " . ")
      end
    end.
Proof. reflexivity. Qed.
Lemma writes_atom : forall gc t d, write_atom gc d = Ok t -> match d with DPair _ _ | DVec (_ :: _) => False | _ => True end -> writes gc t d.
Proof.
  intros gc t d E A. exists 1%nat. intros k out r n _ H g Hg. destruct g as [|g]; [lia|]. rewrite write_rec_S. destruct d as [| | | | | | | | |[|]]; try contradiction; rewrite E; cbn [bind]; apply H; lia.
Qed.

(** the rest of a list *)
Definition tail_ok (gc : Z -> cat) (limit : Z) (t : list Z) (d : datum) : Prop :=
  (exists c t', t = c :: t' /\ (c = 32 \/ c = 41)) /\
  (exists N, forall k out r n, (Z.of_nat (S (List.length k)) <= STACK_LIMIT) -> (Z.of_nat (List.length k + depth d) <= STACK_LIMIT) -> from gc n WNext k (out ++ t) r -> from gc (N + n) WNext (FList d :: k) out r) /\
  (forall acc rest, acc <> [] -> exists p M, close_list (fst p) (snd p) = close_list acc (Some d) /\ forall g, (M <= g)%nat -> read_list_int gc limit g 41 acc None (t ++ rest) = Got p rest).
(** the rest of a vector *)
Definition vtail_ok (gc : Z -> cat) (limit : Z) (t : list Z) (xs : list datum) : Prop :=
  (exists c t', t = c :: t' /\ (c = 32 \/ c = 41)) /\
  (exists N, forall k out r n, (Z.of_nat (S (List.length k) + deepest xs) <= STACK_LIMIT) -> from gc n WNext k (out ++ t) r -> from gc (N + n) WNext (FVec xs :: k) out r) /\
  (forall acc rest, exists M, forall g, (M <= g)%nat -> read_list_int gc limit g 41 acc None (t ++ rest) = Got (rev xs ++ acc, None) rest).
Lemma tail_delimited : forall t rest, (exists c t', t = c :: t' /\ (c = 32 \/ c = 41)) -> delimited (t ++ rest).
Proof. intros t rest (c & t' & -> & [->| ->]); [apply delimited_space|apply delimited_close]. Qed.
Lemma read_list_space : forall gc limit g c acc tail X, read_list_int gc limit g c acc tail (32 :: X) = read_list_int gc limit g c acc tail X.
Proof. intros. destruct g; [reflexivity|]. rewrite !read_list_int_S. reflexivity. Qed.
Lemma read_internal_space : forall gc limit g X, read_internal gc limit g (32 :: X) = read_internal gc limit g X.
Proof. intros. destruct g; [reflexivity|]. rewrite !read_internal_S. reflexivity. Qed.
Lemma app_snoc3 : forall (A : Type) (a b c d : list A), ((a ++ b) ++ c) ++ d = a ++ b ++ c ++ d. Proof. intros. now rewrite !app_assoc. Qed.

Lemma tail_nil : forall gc limit, tail_ok gc limit [41] DNil.
Proof.
  intros. split; [eauto|]. split.
  - exists 1%nat. intros k out r n _ _ H g Hg. destruct g as [|g]; [lia|]. rewrite write_rec_S. apply H. lia.
  - intros acc rest _. exists (acc, None), 1%nat. split; [reflexivity|]. intros g Hg. destruct g as [|g]; [lia|]. reflexivity.
Qed.
Lemma tail_pair : forall gc limit ta a td d, writes gc ta a -> reads gc limit ta a -> tail_ok gc limit td d -> tail_ok gc limit ([32] ++ ta ++ td) (DPair a d).
Proof.
  intros gc limit ta a td d (Na & Wa) (Sa & Ra & La) (Sd & (Nd & Wd) & Rd). split; [exists 32, (ta ++ td); auto|]. split.
  - exists (S (Na + Nd)). intros k out r n L1 L2 H g Hg. cbn [depth] in L2. destruct g as [|g]; [lia|]. rewrite write_rec_S. apply (Wa (FList d :: k) (out ++ [32]) r (Nd + n)%nat); [cbn [List.length]; lia| |lia].
    apply Wd; [lia|lia|]. now rewrite app_snoc3.
  - intros acc rest Na'. destruct (Rd (a :: acc) rest ltac:(discriminate)) as (p & M & E & HM). exists p. destruct (La acc (td ++ rest) (Got p rest) M (tail_delimited td rest Sd) HM) as (M' & HM'). exists M'. split; [exact E|]. intros g Hg. cbn [app]. rewrite read_list_space, <- app_assoc. now apply HM'.
Qed.
Lemma tail_atom : forall gc limit t d, writes gc t d -> reads gc limit t d -> depth d = 0%nat \/ (exists xs, d = DVec xs) -> match d with DNil | DPair _ _ => False | _ => True end -> tail_ok gc limit (zs " . " ++ t ++ [41]) d.
Proof.
  intros gc limit t d (N & W) (St & R & _) Dp K. change (zs " . ") with [32; 46; 32]. split; [exists 32; eexists; split; [reflexivity|auto]|]. split.
  - assert (H1 : (exists xs, d = DVec xs) \/ depth d = 0%nat /\ (forall g k out, write_rec gc (S g) WNext (FList d :: k) out = write_rec gc g (W1 d) (FList DNil :: k) (out ++ [32; 46; 32]))).
    { destruct d; try contradiction; eauto; right; (split; [reflexivity|]); intros; rewrite write_rec_S; reflexivity. }
    destruct H1 as [(xs & ->)|[H0 H1]].
    + exists (N + 2)%nat. intros k out r n L1 L2 H g Hg. destruct g as [|g]; [lia|]. rewrite write_rec_S. rewrite (W [] [] t 1%nat).
      * cbn [bind]. change (zs " . ") with [32; 46; 32]. apply H. lia.
      * cbn [List.length]. lia.
      * intros g' Hg'. destruct g' as [|g']; [lia|]. reflexivity.
      * lia.
    + exists (S (S N)). intros k out r n L1 L2 H g Hg. destruct g as [|g]; [lia|]. rewrite H1. apply (W (FList DNil :: k) (out ++ [32; 46; 32]) r (S n)); [|clear Hg|lia].
      { cbn [List.length]. lia. }
      intros g' Hg'. destruct g' as [|g']; [lia|]. rewrite write_rec_S. replace (((out ++ [32; 46; 32]) ++ t) ++ [41]) with (out ++ [32; 46; 32] ++ t ++ [41]) by now rewrite !app_assoc. apply H. lia.
  - intros acc rest Na. destruct (R (41 :: rest) (delimited_close rest)) as (M & HM). exists (acc, Some d), (S (S M)). split; [reflexivity|]. intros g Hg. destruct g as [|[|g]]; [lia|lia|]. cbn [app]. rewrite read_list_space. rewrite read_list_int_S. rewrite skipws_starts by starts_ascii.
    change (46 =? 41) with false. change (46 =? 46) with true. change (32 =? 41) with false. assert (C32 : constituent gc false 32 = false) by reflexivity. rewrite C32. cbn [negb]. cbv iota. destruct acc as [|a acc]; [contradiction|].
    rewrite read_item_S, read_internal_space. rewrite <- app_assoc. cbn [app]. rewrite HM by lia. rewrite read_list_int_S. reflexivity.
Qed.
Lemma vtail_nil : forall gc limit, vtail_ok gc limit [41] [].
Proof.
  intros. split; [eauto|]. split.
  - exists 1%nat. intros k out r n _ H g Hg. destruct g as [|g]; [lia|]. rewrite write_rec_S. apply H. lia.
  - intros acc rest. exists 1%nat. intros g Hg. destruct g as [|g]; [lia|]. reflexivity.
Qed.
Lemma vtail_cons : forall gc limit ta a td xs, writes gc ta a -> reads gc limit ta a -> vtail_ok gc limit td xs -> vtail_ok gc limit ([32] ++ ta ++ td) (a :: xs).
Proof.
  intros gc limit ta a td xs (Na & Wa) (Sa & Ra & La) (Sd & (Nd & Wd) & Rd). split; [exists 32, (ta ++ td); auto|]. split.
  - exists (S (Na + Nd)). intros k out r n L2 H g Hg. cbn [deepest] in L2. destruct g as [|g]; [lia|]. rewrite write_rec_S. apply (Wa (FVec xs :: k) (out ++ [32]) r (Nd + n)%nat); [cbn [List.length]; lia| |lia].
    apply Wd; [lia|]. now rewrite app_snoc3.
  - intros acc rest. destruct (Rd (a :: acc) rest) as (M & HM). destruct (La acc (td ++ rest) _ M (tail_delimited td rest Sd) HM) as (M' & HM'). exists M'. intros g Hg. cbn [app]. rewrite read_list_space, <- app_assoc. rewrite HM' by lia. cbn [rev]. now rewrite <- app_assoc.
Qed.

(** ** whole data *)
Definition both (gc : Z -> cat) (limit : Z) (t : list Z) (d : datum) : Prop := writes gc t d /\ reads gc limit t d.
Lemma both_pair : forall gc limit ta a td d, quote_prefix a d = None -> both gc limit ta a -> tail_ok gc limit td d -> both gc limit ([40] ++ ta ++ td) (DPair a d).
Proof.
  intros gc limit ta a td d Q ((Na & Wa) & (Sa & Ra & La)) (Sd & (Nd & Wd) & Rd). split.
  - exists (S (Na + Nd)). intros k out r n L H g Hg. cbn [depth] in L. destruct g as [|g]; [lia|]. rewrite write_rec_S, Q. rewrite (proj2 (Z.ltb_ge _ _)) by lia. apply (Wa (FList d :: k) (out ++ [40]) r (Nd + n)%nat); [cbn [List.length]; lia| |lia]. apply Wd; [lia|lia|]. now rewrite app_snoc3.
  - cbn [app]. apply reads_intro; [starts_ascii|lia|]. intros rest D. destruct (Rd [a] rest ltac:(discriminate)) as (p & M & E & HM). destruct (La [] (td ++ rest) _ M (tail_delimited td rest Sd) HM) as (M' & HM'). exists (S M'). intros g Hg. destruct g as [|g]; [lia|]. rewrite read_internal_S. cbn [app]. rewrite skipws_starts by starts_ascii. change (40 =? 40) with true. cbv iota. rewrite <- app_assoc. rewrite HM' by lia. cbn [map_got]. rewrite E. reflexivity.
Qed.
Lemma close_elements : forall xs, list_elements (close_list (rev xs) None) = Some xs.
Proof.
  intros xs. unfold close_list. rewrite fold_left_rev_right || rewrite <- fold_left_rev_right. rewrite rev_involutive. induction xs as [|x xs IH]; cbn [fold_right list_elements]; [reflexivity|]. now rewrite IH.
Qed.
Lemma both_vec : forall gc limit ta a td xs, both gc limit ta a -> vtail_ok gc limit td xs -> both gc limit ([35; 40] ++ ta ++ td) (DVec (a :: xs)).
Proof.
  intros gc limit ta a td xs ((Na & Wa) & (Sa & Ra & La)) (Sd & (Nd & Wd) & Rd). split.
  - exists (S (Na + Nd)). intros k out r n L H g Hg. rewrite depth_vec in L. cbn [deepest] in L. destruct g as [|g]; [lia|]. rewrite write_rec_S. rewrite (proj2 (Z.ltb_ge _ _)) by lia. apply (Wa (FVec xs :: k) (out ++ [35; 40]) r (Nd + n)%nat); [cbn [List.length]; lia| |lia]. apply Wd; [lia|]. now rewrite app_snoc3.
  - cbn [app]. apply reads_intro; [starts_ascii|lia|]. intros rest D. destruct (Rd [a] rest) as (M & HM). destruct (La [] (td ++ rest) _ M (tail_delimited td rest Sd) HM) as (M' & HM'). exists (S M'). intros g Hg. destruct g as [|g]; [lia|]. rewrite read_internal_S. cbn [app]. rewrite skipws_starts by starts_ascii.
    change (35 =? 40) with false. change (35 =? 34) with false. change (35 =? 35) with true. change ((40 =? 116) || (40 =? 84)) with false. change ((40 =? 102) || (40 =? 70)) with false. change (40 =? 40) with true. cbv iota. rewrite <- app_assoc. rewrite HM' by lia. cbn [fst snd]. change (rev xs ++ [a]) with (rev (a :: xs)). rewrite close_elements. reflexivity.
Qed.
Lemma both_vec0 : forall gc limit, both gc limit (zs "#()") (DVec []).
Proof.
  intros. split; [apply writes_atom; [reflexivity|exact I]|]. change (zs "#()") with [35; 40; 41]. apply reads_intro; [starts_ascii|lia|]. intros rest D. exists 2%nat. intros g Hg. destruct g as [|[|g]]; [lia|lia|]. reflexivity.
Qed.
Lemma both_quoted : forall gc limit p q t x, In (p, q) [([39], zs "quote"); ([96], zs "quasiquote"); ([44], zs "unquote"); ([44; 64], zs "unquote-splicing")] ->
  both gc limit t x -> both gc limit (p ++ t) (quoted q x).
Proof.
  intros gc limit p q t x Hq ((N & W) & (St & R & _)).
  assert (QP : quote_prefix (DSym q) (DPair x DNil) = Some (p, x)). { cbn [In] in Hq. decompose [or] Hq; try contradiction; match goal with H : _ = _ |- _ => injection H as <- <- end; vm_compute; reflexivity. }
  split.
  - exists (S N). intros k out r n L H g Hg. unfold quoted in *. cbn [depth] in L. destruct g as [|g]; [lia|]. rewrite write_rec_S, QP. apply (W k (out ++ p) r n); [lia|now rewrite <- app_assoc|lia].
  - destruct St as (c & t' & -> & Sc).
    assert (IT : forall rest, delimited rest -> exists M, forall g, (M <= g)%nat -> read_item gc limit g ((c :: t') ++ rest) = Got x rest).
    { intros rest D. destruct (R rest D) as (M & HM). exists (S M). intros g Hg. destruct g as [|g]; [lia|]. rewrite read_item_S, HM by lia. reflexivity. }
    cbn [In] in Hq. destruct Hq as [Hq|[Hq|[Hq|[Hq|[]]]]]; injection Hq as <- <-; cbn [app]; (apply reads_intro; [starts_ascii|lia|]); intros rest D; destruct (IT rest D) as (M & HM); exists (S M); intros g Hg; (destruct g as [|g]; [lia|]); rewrite read_internal_S; cbn [app]; rewrite skipws_starts by starts_ascii; cbn [app] in HM.
    + repeat match goal with |- context [39 =? ?k] => first [change (39 =? k) with false|change (39 =? k) with true] end. cbv iota. rewrite HM by lia. reflexivity.
    + repeat match goal with |- context [96 =? ?k] => first [change (96 =? k) with false|change (96 =? k) with true] end. cbv iota. rewrite HM by lia. reflexivity.
    + repeat match goal with |- context [44 =? ?k] => first [change (44 =? k) with false|change (44 =? k) with true] end. cbv iota. destruct Sc as (_ & _ & _ & _ & N64). rewrite (proj2 (Z.eqb_neq c 64)) by auto. rewrite HM by lia. reflexivity.
    + repeat match goal with |- context [44 =? ?k] => first [change (44 =? k) with false|change (44 =? k) with true] end. change (64 =? 64) with true. cbv iota. rewrite HM by lia. reflexivity.
Qed.
Lemma quote_prefix_some : forall a d p x, quote_prefix a d = Some (p, x) -> exists q, DPair a d = quoted q x /\ In (p, q) [([39], zs "quote"); ([96], zs "quasiquote"); ([44], zs "unquote"); ([44; 64], zs "unquote-splicing")].
Proof.
  intros a d p x H. destruct a; try discriminate. destruct d as [| | | | | | | |x' d'|]; try discriminate. destruct d'; try discriminate. cbn [quote_prefix] in H.
  repeat match type of H with (if ?b then _ else _) = _ => destruct b as [->|_] end; try discriminate; injection H as <- <-; eexists; (split; [reflexivity|cbn [In]; auto]).
Qed.
Lemma both_datum : forall gc limit, unicode_spaces gc -> 0 <= limit <= 2 ^ 63 / 10 + 2048 -> forall m d, (size d <= m)%nat -> good gc d ->
  (exists t, both gc limit t d) /\ (exists t, tail_ok gc limit t d).
Proof.
  intros gc limit U Hl. induction m as [|m IH]; intros d Hs G. { pose proof (size_pos d). lia. }
  assert (ATOM : forall t, write_atom gc d = Ok t -> match d with DPair _ _ | DVec (_ :: _) | DNil => False | _ => True end -> reads gc limit t d -> (exists t, both gc limit t d) /\ (exists t, tail_ok gc limit t d)).
  { intros t E K R. assert (Wt : writes gc t d) by (apply writes_atom; auto; destruct d as [| | | | | | | | |[|]]; auto). split; [exists t; split; auto|]. eexists. apply (tail_atom gc limit t d); auto. { destruct d as [| | | | | | | | |[|]]; cbn; eauto; contradiction. } destruct d; auto. }
  destruct d as [| | |n|c|s|s|name|a d|xs].
  - split; [exists (zs "()"); split; [apply writes_atom; [reflexivity|exact I]|apply reads_nil]|exists [41]; apply tail_nil].
  - apply (ATOM (zs "#t")); [reflexivity|exact I|apply reads_true].
  - apply (ATOM (zs "#f")); [reflexivity|exact I|apply reads_false].
  - destruct G as [C B]. destruct (reads_int gc limit n C B Hl) as (t & E & R). apply (ATOM t); auto.
  - apply (ATOM (write_char gc c)); [reflexivity|exact I|now apply reads_char].
  - apply (ATOM (write_string gc s)); [reflexivity|exact I|now apply reads_string].
  - apply (ATOM (write_bytes gc s)); [reflexivity|exact I|now apply reads_bytes].
  - destruct G as [F P]. apply (ATOM (write_symbol gc name)); [reflexivity|exact I|now apply reads_symbol].
  - destruct G as [Ga Gd]. cbn [size] in Hs. pose proof (size_pos a). pose proof (size_pos d). destruct (IH a ltac:(lia) Ga) as [(ta & Ba) _]. destruct (IH d ltac:(lia) Gd) as [_ (td & Td)]. split.
    + destruct (quote_prefix a d) as [[p x]|] eqn:Q.
      * destruct (quote_prefix_some a d p x Q) as (q & E & Hq). rewrite E. injection E as -> ->. cbn [size] in Hs. destruct Gd as [Gx _]. destruct (IH x ltac:(lia) Gx) as [(tx & Bx) _]. exists (p ++ tx). now apply both_quoted.
      * eexists. apply (both_pair gc limit ta a td d); auto.
    + destruct Ba as [Wa Ra]. eexists. apply (tail_pair gc limit ta a td d); auto.
  - apply good_vec in G. rewrite size_vec in Hs.
    assert (VT : forall l, (total l <= m)%nat -> Forall (good gc) l -> exists t, vtail_ok gc limit t l).
    { induction l as [|x l IHl]; intros Ht F. { exists [41]. apply vtail_nil. } inversion F as [|? ? Gx Fl]; subst. cbn [total] in Ht. pose proof (size_pos x). destruct (IHl ltac:(lia) Fl) as (tl & Tl). destruct (IH x ltac:(lia) Gx) as [(tx & Wx & Rx) _]. eexists. apply (vtail_cons gc limit tx x tl l); auto. }
    assert (B : exists t, both gc limit t (DVec xs)).
    { destruct xs as [|x xs]; [exists (zs "#()"); apply both_vec0|]. inversion G as [|? ? Gx Fl]; subst. cbn [total] in Hs. pose proof (size_pos x). destruct (IH x ltac:(lia) Gx) as [(tx & Bx) _]. destruct (VT xs ltac:(lia) Fl) as (tl & Tl). eexists. apply (both_vec gc limit tx x tl xs); auto. }
    split; auto. destruct B as (t & Wt & Rt). eexists. apply (tail_atom gc limit t (DVec xs)); eauto.
Qed.
