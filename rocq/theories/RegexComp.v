(** The code generated for a regular expression decides the language of the expression. *)
From Coq Require Import List ZArith Bool Lia.
From Verif Require Import Utf8Model Utf8Spec Utf8Proofs StringProofs SearchProofs2 RegexModel RegexSpec RegexScope RegexVm RegexDec RegexAtom.
Import ListNotations.
Local Open Scope nat_scope.
Ltac Zify.zify_post_hook ::= idtac.

Section ReInd.
  Variable P : re -> Prop.
  Hypotheses (h1 : forall c, P (Chr c)) (h2 : forall k, P (CSet k)) (h3 : forall k, P (Comp k)) (h4 : P Any) (h5 : P Bos) (h6 : P Eos) (h7 : P Bol) (h8 : P Eol) (h9 : P Wb) (h10 : P Nwb)
    (h11 : forall l, Forall P l -> P (Seq l)) (h12 : forall l, Forall P l -> P (Uncase l)) (h13 : forall l, Forall P l -> P (Cased l)) (h14 : forall l, Forall P l -> P (Alt l))
    (h15 : forall k m n l, Forall P l -> P (Rep k m n l)) (h16 : forall g l, Forall P l -> P (Grp g l)) (h17 : forall l, Forall P l -> P (Once l)) (h18 : forall b l, Forall P l -> P (Look b l)) (h19 : forall g, P (Backref g)).
  Fixpoint re_ind' (r : re) : P r :=
    let all := fix all (l : list re) : Forall P l := match l with [] => Forall_nil _ | x :: l' => Forall_cons _ (re_ind' x) (all l') end in
    match r with
    | Chr c => h1 c | CSet k => h2 k | Comp k => h3 k | Any => h4 | Bos => h5 | Eos => h6 | Bol => h7 | Eol => h8 | Wb => h9 | Nwb => h10
    | Seq l => h11 l (all l) | Uncase l => h12 l (all l) | Cased l => h13 l (all l) | Alt l => h14 l (all l)
    | Rep k m n l => h15 k m n l (all l) | Grp g l => h16 g l (all l) | Once l => h17 l (all l) | Look b l => h18 b l (all l) | Backref g => h19 g
    end.
End ReInd.

Lemma wf_mono S mu r : wf S mu false r = true -> wf S mu true r = true.
Proof.
  induction r using re_ind'; cbn [wf]; auto.
  - intros E. apply orb_true_iff. auto.
  - intros E. change (wfs S mu false l = true) in E. change (wfs S mu true l = true). induction H as [|x l Hx Hl IH]; auto. cbn [wfs] in *.
    apply andb_true_iff in E as (E1 & E2). cbn [andb] in E1. rewrite IH by assumption. destruct l; cbn [is_nil andb]; rewrite ?E1, ?Hx by assumption; reflexivity.
  - intros E. change (wfs S mu false l = true) in E. change (wfs S mu true l = true). induction H as [|x l Hx Hl IH]; auto. cbn [wfs] in *.
    apply andb_true_iff in E as (E1 & E2). cbn [andb] in E1. rewrite IH by assumption. destruct l; cbn [is_nil andb]; rewrite ?E1, ?Hx by assumption; reflexivity.
  - rewrite !forallb_forall. rewrite Forall_forall in H. auto.
  - intros E. apply andb_true_iff in E as (E0 & E). rewrite E0. change (wfs S mu false l = true) in E. change (wfs S mu true l = true). induction H as [|x l Hx Hl IH]; auto. cbn [wfs] in *.
    apply andb_true_iff in E as (E1 & E2). cbn [andb] in E1. rewrite IH by assumption. destruct l; cbn [is_nil andb]; rewrite ?E1, ?Hx by assumption; reflexivity.
Qed.
Lemma wfs_all S mu lastp l : forallb (wf S mu false) l = true -> wfs S mu lastp l = true.
Proof.
  induction l as [|x l IH]; cbn [forallb wfs]; auto. intros E. apply andb_true_iff in E as (E1 & E2). rewrite IH by assumption.
  destruct (lastp && is_nil l); rewrite ?E1, ?(wf_mono _ _ _ E1); reflexivity.
Qed.

Section Lang.
Variables (w : list Z) (Ss : list cset) (mu : bool).
Notation M := (mt w Ss mu).
Notation Ms := (mts w Ss mu).
Lemma mt_seq l i j : M (Seq l) i j = Ms l i j. Proof. reflexivity. Qed.
Lemma mt_cased l i j : M (Cased l) i j = Ms l i j. Proof. reflexivity. Qed.
Lemma mt_grp g l i j : M (Grp g l) i j = Ms l i j. Proof. reflexivity. Qed.
Lemma mt_rep k m n l i j : M (Rep k m n l) i j = exists q, m <= q /\ match n with Some n' => q <= n' | None => True end /\ iter (Ms l) q i j. Proof. reflexivity. Qed.
Lemma mt_look b l i j : M (Look b l) i j <-> ((if b then ~ (exists h, Ms l i h) else exists h, Ms l i h) /\ j = i).
Proof. destruct b; reflexivity. Qed.
Lemma mt_alt l i j : M (Alt l) i j <-> exists x, In x l /\ M x i j.
Proof.
  cbn [mt]. induction l as [|x l IH].
  - split; [intros []|intros (x & [] & _)].
  - rewrite IH. split; [intros [A|(y & I & A)]; [exists x|exists y]; cbn; auto|]. intros (y & [<-|I] & A); eauto.
Qed.
Lemma mts_cons x l i j : Ms (x :: l) i j = exists h, M x i h /\ Ms l h j. Proof. reflexivity. Qed.
Lemma mts_one x i j : Ms [x] i j <-> M x i j.
Proof. cbn [mts]. split; [intros (h & A & <-); exact A|eauto]. Qed.
Lemma mts_app a b i j : Ms (a ++ b) i j <-> exists h, Ms a i h /\ Ms b h j.
Proof.
  revert i. induction a as [|x a IH]; intros i; cbn [app mts]; [split; [eauto|intros (h & -> & A); exact A]|].
  split; [intros (h & A & B); apply IH in B as (h2 & B & C); eauto|]. intros (h & (h2 & A & B) & C). exists h2. split; auto. apply IH. eauto.
Qed.
Lemma mts_repeat l m i j : Ms (concat (repeat l m)) i j <-> iter (Ms l) m i j.
Proof.
  revert i. induction m as [|m IH]; intros i; cbn [repeat concat iter]; [reflexivity|]. rewrite mts_app. split; intros (h & A & B); exists h; split; auto; apply IH; auto.
Qed.
Lemma iter_app (R : nat -> nat -> Prop) a b i j : iter R (a + b) i j <-> exists h, iter R a i h /\ iter R b h j.
Proof.
  revert i. induction a as [|a IH]; intros i; cbn [Nat.add iter]; [split; [eauto|intros (h & -> & A); exact A]|].
  split; [intros (h & A & B); apply IH in B as (h2 & B & C); eauto|]. intros (h & (h2 & A & B) & C). exists h2. split; auto. apply IH. eauto.
Qed.
Lemma iter_range (R : nat -> nat -> Prop) q : (forall i j, i <= length w -> R i j -> i <= j <= length w) -> forall i j, i <= length w -> iter R q i j -> i <= j <= length w.
Proof. intros H. induction q as [|q IH]; cbn [iter]; intros i j Hi; [intros <-; lia|]. intros (h & A & B). apply H in A; [|lia]. apply IH in B; lia. Qed.
Lemma mts_range0 l : Forall (fun r => forall i j, i <= length w -> M r i j -> i <= j <= length w) l -> forall i j, i <= length w -> Ms l i j -> i <= j <= length w.
Proof. induction 1 as [|x l Hx Hl IH]; cbn [mts]; intros i j Hi; [intros <-; lia|]. intros (h & A & B). apply Hx in A; [|lia]. apply IH in B; lia. Qed.
Lemma mt_range r : forall i j, i <= length w -> M r i j -> i <= j <= length w.
Proof.
  induction r using re_ind'; intros i j Hi.
  - cbn [mt]. unfold at_. intros (A & ->). assert (i < length w) by (apply nth_error_Some; congruence). lia.
  - cbn [mt]. unfold at_. intros (ch & A & _ & ->). assert (i < length w) by (apply nth_error_Some; congruence). lia.
  - cbn [mt]. unfold at_. intros (ch & A & _ & ->). assert (i < length w) by (apply nth_error_Some; congruence). lia.
  - cbn [mt]. unfold at_. intros (ch & A & ->). assert (i < length w) by (apply nth_error_Some; congruence). lia.
  - intros (A & ->). lia.
  - intros (A & ->). lia.
  - intros (A & ->). lia.
  - intros (A & ->). lia.
  - intros (A & ->). lia.
  - intros (A & ->). lia.
  - rewrite mt_seq. apply mts_range0; auto.
  - intros [].
  - rewrite mt_cased. apply mts_range0; auto.
  - rewrite mt_alt. intros (x & I & A). rewrite Forall_forall in H. eapply H; eauto.
  - rewrite mt_rep. intros (q & _ & _ & A). revert A. apply iter_range; auto. apply mts_range0; auto.
  - rewrite mt_grp. apply mts_range0; auto.
  - intros [].
  - rewrite mt_look. intros (_ & ->). lia.
  - intros [].
Qed.
Lemma mts_range l i j : i <= length w -> Ms l i j -> i <= j <= length w.
Proof. apply mts_range0. apply Forall_forall. intros; eapply mt_range; eauto. Qed.
Lemma mts_null l : Forall (fun r => forall i j, i <= length w -> nullable r = false -> M r i j -> i < j) l ->
  forall i j, i <= length w -> forallb nullable l = false -> Ms l i j -> i < j.
Proof.
  induction 1 as [|x l Hx Hl IH]; cbn [mts forallb]; intros i j Hi N; [discriminate|]. intros (h & A & B).
  pose proof (mt_range x i h Hi A). pose proof (mts_range l h j ltac:(lia) B). apply andb_false_iff in N as [N|N]; [apply Hx in A; auto; lia|apply IH in B; auto; lia].
Qed.
Lemma mt_null r : forall i j, i <= length w -> nullable r = false -> M r i j -> i < j.
Proof.
  induction r using re_ind'; intros i j Hi; cbn [nullable]; try discriminate.
  - intros _ (A & ->). lia.
  - intros _ (ch & _ & _ & ->). lia.
  - intros _ (ch & _ & _ & ->). lia.
  - intros _ (ch & _ & ->). lia.
  - rewrite mt_seq. apply mts_null; auto.
  - rewrite mt_cased. apply mts_null; auto.
  - intros N A. rewrite mt_alt in A. destruct A as (x & I & A). rewrite Forall_forall in H. eapply H; eauto.
    destruct (nullable x) eqn:E; auto. exfalso. enough (existsb nullable l = true) by congruence. apply existsb_exists. eauto.
  - intros N A. apply orb_false_iff in N as (N1 & N2). apply Nat.eqb_neq in N1. rewrite mt_rep in A. destruct A as (q & L & _ & A).
    destruct q as [|q]; [lia|]. destruct A as (h & A & B). pose proof (mts_null l H i h Hi N2 A). pose proof (mts_range l i h Hi A).
    apply iter_range in B; [lia|intros; eapply mts_range; eauto|lia].
  - rewrite mt_grp. apply mts_null; auto.
Qed.
Lemma mts_consumes l i j : i <= length w -> forallb nullable l = false -> Ms l i j -> i < j.
Proof. apply mts_null. apply Forall_forall. intros; eapply mt_null; eauto. Qed.
End Lang.

Lemma alt_cons f f' fs base lastp fin : alt_items (f :: f' :: fs) base lastp fin =
  OP O_TRY :: Off (base + 3 + size (f (base + 3) lastp) + 3) :: f (base + 3) lastp ++ OP O_JUMP :: Off fin :: alt_items (f' :: fs) (base + 3 + size (f (base + 3) lastp) + 3) lastp fin.
Proof. reflexivity. Qed.
Lemma size_alt fs : forall base lastp f1 f2, size (alt_items fs base lastp f1) = size (alt_items fs base lastp f2).
Proof.
  induction fs as [|f fs IH]; intros base lastp f1 f2; [reflexivity|]. destruct fs as [|f' fs]; [reflexivity|].
  rewrite !alt_cons, !size_cons, !size_app, !size_cons. rewrite (IH _ _ f1 f2). reflexivity.
Qed.
Definition sz (f : gen) : Prop := forall b b' lp, size (f b lp) = size (f b' lp).
Definition szel (e : elt) : Prop := match e with EChr _ => True | EGen f => sz f end.
Lemma size_seq fold l : Forall szel l -> forall run n b b' lp, size (seq_items fold run n l b lp) = size (seq_items fold run n l b' lp).
Proof.
  induction 1 as [|[ch|f] l Hx Hl IH]; intros run n b b' lp; cbn [seq_items]; auto.
  - destruct (n <? char_max)%Z; auto. rewrite !size_app. f_equal. auto.
  - rewrite !size_app. f_equal. rewrite (Hx _ (b' + size (emit_run fold run))). f_equal. auto.
Qed.
Lemma size_alt_base fs : Forall sz fs -> forall b b' lastp f1 f2, size (alt_items fs b lastp f1) = size (alt_items fs b' lastp f2).
Proof.
  induction 1 as [|f fs Hf Hl IH]; intros b b' lastp f1 f2; [reflexivity|]. destruct fs as [|f' fs]; [apply Hf|].
  rewrite !alt_cons, !size_cons, !size_app, !size_cons. rewrite (Hf _ (b' + 3)). rewrite (IH _ (b' + 3 + size (f (b' + 3) lastp) + 3) _ f1 f2). reflexivity.
Qed.
Lemma size_pairs t t' n : forall b b' k k', size (pairs b k t n) = size (pairs b' k' t' n).
Proof. induction n; intros; cbn [pairs]; [reflexivity|]. rewrite !size_cons. erewrite IHn. reflexivity. Qed.
Lemma size_pairs6 t n : forall b k, size (pairs b k t n) = 6 * n.
Proof. induction n; intros; cbn [pairs]; [reflexivity|]. rewrite !size_cons, IHn. cbn [isize OP]. lia. Qed.
Lemma size_copies f n : sz f -> forall b, size (copies f n b) = n * size (f 0 false).
Proof. intros Hf. induction n; intros; cbn [copies]; [reflexivity|]. rewrite size_app, IHn, (Hf b 0). lia. Qed.
Section Comp.
Variables (Ss : list cset) (mu : bool).
Notation C := (comp Ss mu).
Lemma szel_elts f l : Forall (fun r => sz (f r)) l -> Forall szel (elts f l).
Proof. induction 1 as [|x l Hx Hl IH]; cbn; constructor; auto. destruct x; cbn; auto. Qed.
Lemma szel_concat l m : Forall szel l -> Forall szel (concat (repeat l m)).
Proof. intros H. induction m; cbn; auto. apply Forall_app. auto. Qed.
Lemma size_base r : forall fold, sz (C fold r).
Proof.
  induction r using re_ind'; intros fold; try (intros b b' lp; reflexivity).
  - intros b b' lp. cbn [comp]. apply size_seq, szel_elts. rewrite Forall_forall in *. auto.
  - intros b b' lp. cbn [comp]. apply size_seq, szel_elts. rewrite Forall_forall in *. auto.
  - intros b b' lp. cbn [comp]. apply size_seq, szel_elts. rewrite Forall_forall in *. auto.
  - intros b b' lp. cbn [comp]. apply size_alt_base. apply Forall_map. rewrite Forall_forall in *. intros; apply H; auto.
  - assert (Fe : Forall szel (elts (C fold) l)) by (apply szel_elts; rewrite Forall_forall in *; auto).
    assert (Fc : Forall szel (concat (repeat (elts (C fold) l) m))) by (apply szel_concat; auto).
    intros b b' lp. cbn [comp].
    assert (HD : forall lp, size (seq_items fold [] 0 (concat (repeat (elts (C fold) l) m)) b lp) = size (seq_items fold [] 0 (concat (repeat (elts (C fold) l) m)) b' lp)) by (intros; apply size_seq; auto).
    assert (SB : sz (seq_items fold [] 0 (elts (C fold) l))) by (intros ? ? ?; apply size_seq; auto).
    set (E := match n with None => true | Some n' => (1 <? Z.of_nat n')%Z end). fold E.
    assert (General : forall g, size (match n with
        | Some n' => if Nat.eqb m n' then seq_items fold [] 0 (concat (repeat (elts (C fold) l) m)) b E
                     else seq_items fold [] 0 (concat (repeat (elts (C fold) l) m)) b E ++ minmax_items g (n' - m) (seq_items fold [] 0 (elts (C fold) l)) (b + size (seq_items fold [] 0 (concat (repeat (elts (C fold) l) m)) b E))
        | None => seq_items fold [] 0 (concat (repeat (elts (C fold) l) m)) b E ++ star_items g (seq_items fold [] 0 (elts (C fold) l)) (b + size (seq_items fold [] 0 (concat (repeat (elts (C fold) l) m)) b E))
        end) = size (match n with
        | Some n' => if Nat.eqb m n' then seq_items fold [] 0 (concat (repeat (elts (C fold) l) m)) b' E
                     else seq_items fold [] 0 (concat (repeat (elts (C fold) l) m)) b' E ++ minmax_items g (n' - m) (seq_items fold [] 0 (elts (C fold) l)) (b' + size (seq_items fold [] 0 (concat (repeat (elts (C fold) l) m)) b' E))
        | None => seq_items fold [] 0 (concat (repeat (elts (C fold) l) m)) b' E ++ star_items g (seq_items fold [] 0 (elts (C fold) l)) (b' + size (seq_items fold [] 0 (concat (repeat (elts (C fold) l) m)) b' E))
        end)).
    { intros g. destruct n as [n'|]; [destruct (Nat.eqb m n'); [apply HD|]|]; rewrite !size_app, (HD E); f_equal.
      - unfold minmax_items. destruct g; rewrite !size_app, !size_pairs6, !(size_copies _ _ SB), !size_cons; reflexivity.
      - unfold star_items. destruct g; rewrite !size_cons, !size_app; f_equal; rewrite ?size_cons; f_equal; try (apply f_equal2; [apply SB|reflexivity]).
        f_equal. f_equal. f_equal. apply SB. }
    destruct k; try apply General. destruct n as [n'|]; try apply General. destruct l as [|x l]; try apply General. destruct l; try apply General.
    destruct (while_items Ss x); try apply General. rewrite !size_app. f_equal. apply HD.
  - intros b b' lp. cbn [comp]. rewrite !size_cons, !size_app. do 3 f_equal. apply size_seq, szel_elts. rewrite Forall_forall in *. auto.
  - intros b b' lp. cbn [comp]. rewrite !size_cons, !size_app. do 3 f_equal. apply size_seq, szel_elts. rewrite Forall_forall in *. auto.
  - intros b0 b1 lp. cbn [comp]. rewrite !size_cons, !size_app. do 3 f_equal. apply size_seq, szel_elts. rewrite Forall_forall in *. auto.
Qed.
End Comp.
