From Coq Require Import List Bool Sorted Lia Arith.
From Verif Require Import Outcome ImapModel ImapSpec.
Import ListNotations.

Section P.
Context {K V : Type} (cmp : K -> K -> comparison) (O : order_laws cmp).
Notation tree := (itree K V).
Implicit Types (t a b : tree) (l : list (K * V)).

Fixpoint inorder t : list (K * V) := match t with E => [] | T _ a p b => inorder a ++ p :: inorder b end.

Lemma cmp_refl x : cmp x x = Eq.
Proof. pose proof (ol_sym _ O x x). destruct (cmp x x); auto; discriminate. Qed.
Lemma cmp_gt x y : cmp x y = Gt -> cmp y x = Lt.
Proof. intros H. rewrite (ol_sym _ O x y), H. reflexivity. Qed.
Lemma cmp_lt x y : cmp x y = Lt -> cmp y x = Gt.
Proof. intros H. rewrite (ol_sym _ O x y), H. reflexivity. Qed.
Lemma cmp_eq x y : cmp x y = Eq -> cmp y x = Eq.
Proof. intros H. rewrite (ol_sym _ O x y), H. reflexivity. Qed.
Lemma cmp_eq_r x y z : cmp x y = Eq -> cmp z x = cmp z y.
Proof. intros H. rewrite (ol_sym _ O x z), (ol_sym _ O y z), (ol_eq _ O _ _ z H). reflexivity. Qed.

Lemma inorder_balance c a p b : inorder (balance c a p b) = inorder a ++ p :: inorder b.
Proof.
  unfold balance. destruct c; [reflexivity|].
  destruct a as [|[|] [|[|] a1 q1 a2] q [|[|] a3 q3 a4]]; destruct b as [|[|] [|[|] b1 r1 b2] r [|[|] b3 r3 b4]];
    cbn [inorder app]; rewrite <- ?app_assoc; cbn [app]; rewrite <- ?app_assoc; reflexivity.
Qed.

Fixpoint ins_list k v l : list (K * V) :=
  match l with
  | [] => [(k, v)]
  | p :: r => match cmp k (fst p) with Lt => (k, v) :: p :: r | Eq => (k, v) :: r | Gt => p :: ins_list k v r end
  end.
Definition find_list k l := find (fun p => same cmp k (fst p)) l.
Definition del_list k l := filter (fun p => negb (same cmp k (fst p))) l.

Lemma asc_app_inv l p l' : ascending cmp (l ++ p :: l') ->
  ascending cmp l /\ ascending cmp l' /\ (forall q, In q l -> cmp (fst q) (fst p) = Lt) /\ (forall q, In q l' -> cmp (fst p) (fst q) = Lt).
Proof.
  unfold ascending. induction l as [|x l IH]; intros S.
  - apply StronglySorted_inv in S. destruct S as [S F]. split; [constructor|]. split; [exact S|]. split; [intros q []|].
    rewrite Forall_forall in F. exact F.
  - apply StronglySorted_inv in S. destruct S as [S F]. destruct (IH S) as (S1 & S2 & H1 & H2). rewrite Forall_forall in F.
    split; [|split; [exact S2|split; [|exact H2]]].
    + constructor; auto. apply Forall_forall. intros y Hy. apply F, in_or_app; auto.
    + intros q [->|Hq]; auto. apply F, in_or_app; right; left; reflexivity.
Qed.

Lemma find_none k l : (forall q, In q l -> cmp k (fst q) <> Eq) -> find_list k l = None.
Proof.
  induction l as [|p l IH]; intros H; auto. cbn. unfold same. destruct (cmp k (fst p)) eqn:E; try (apply IH; intros; apply H; right; auto).
  exfalso. apply (H p); [left|]; auto.
Qed.
Lemma find_app k l l' : find_list k (l ++ l') = match find_list k l with Some p => Some p | None => find_list k l' end.
Proof. induction l as [|p l IH]; auto. cbn. destruct (same cmp k (fst p)); auto. Qed.
Lemma get_ok k t : ascending cmp (inorder t) -> get cmp k t = find_list k (inorder t).
Proof.
  induction t as [|c a IHa p b IHb]; intros S; auto. cbn [get inorder]. destruct (asc_app_inv _ _ _ S) as (Sa & Sb & Ha & Hb).
  rewrite find_app. cbn [find_list find]. unfold same at 1. destruct (cmp k (fst p)) eqn:Ek.
  - rewrite (find_none k (inorder a)); auto. intros q Hq. rewrite (ol_eq _ O _ _ (fst q) Ek). rewrite (cmp_lt _ _ (Ha q Hq)). discriminate.
  - rewrite IHa by exact Sa. change (find _ (inorder b)) with (find_list k (inorder b)). rewrite (find_none k (inorder b)).
    + destruct (find_list k (inorder a)); auto.
    + intros q Hq. rewrite (ol_trans _ O _ _ _ Ek (Hb q Hq)). discriminate.
  - rewrite IHb by exact Sb. rewrite (find_none k (inorder a)); auto. intros q Hq. apply cmp_gt in Ek. rewrite (cmp_lt _ _ (ol_trans _ O _ _ _ (Ha q Hq) Ek)). discriminate.
Qed.

Lemma ins_list_lt k v l p l' : cmp k (fst p) = Lt -> ins_list k v (l ++ p :: l') = ins_list k v l ++ p :: l'.
Proof.
  intros H. induction l as [|q l IH]; cbn [ins_list app].
  - rewrite H. reflexivity.
  - destruct (cmp k (fst q)); cbn [app]; auto. rewrite IH. reflexivity.
Qed.
Lemma ins_list_ge k v l l' : (forall q, In q l -> cmp (fst q) k = Lt) -> ins_list k v (l ++ l') = l ++ ins_list k v l'.
Proof.
  induction l as [|q l IH]; intros H; auto. cbn [ins_list app]. rewrite (cmp_lt _ _ (H q ltac:(left; auto))). rewrite IH; auto. intros; apply H; right; auto.
Qed.
Lemma inorder_ins k v t : ascending cmp (inorder t) -> inorder (ins cmp k v t) = ins_list k v (inorder t).
Proof.
  induction t as [|c a IHa p b IHb]; intros S; auto. cbn [ins inorder]. destruct (asc_app_inv _ _ _ S) as (Sa & Sb & Ha & Hb).
  destruct (cmp k (fst p)) eqn:Ek.
  - cbn [inorder]. rewrite ins_list_ge.
    + cbn [ins_list]. rewrite Ek. reflexivity.
    + intros q Hq. rewrite (cmp_eq_r _ _ (fst q) Ek). apply Ha; auto.
  - rewrite inorder_balance, IHa by exact Sa. rewrite ins_list_lt by exact Ek. reflexivity.
  - rewrite inorder_balance, IHb by exact Sb. rewrite ins_list_ge.
    + cbn [ins_list]. rewrite Ek. reflexivity.
    + intros q Hq. apply (ol_trans _ O _ (fst p)); [apply Ha; auto|apply cmp_gt; auto].
Qed.
Lemma ins_not_E k v t : ins cmp k v t <> E.
Proof.
  intros H. assert (inorder (ins cmp k v t) <> []) as G; [|rewrite H in G; apply G; reflexivity].
  destruct t as [|c a p b]; [discriminate|]. cbn [ins]. destruct (cmp k (fst p)); rewrite ?inorder_balance; cbn [inorder]; intros Q; apply app_eq_nil in Q; destruct Q; discriminate.
Qed.
Lemma insert_ok k v t : ascending cmp (inorder t) -> exists t', insert cmp k v t = Ok t' /\ inorder t' = ins_list k v (inorder t).
Proof.
  intros S. rewrite <- inorder_ins by exact S. unfold insert. pose proof (ins_not_E k v t). destruct (ins cmp k v t) as [|c a p b]; [congruence|].
  eexists. split; [reflexivity|]. reflexivity.
Qed.
Lemma ins_list_in k v l q : In q (ins_list k v l) -> q = (k, v) \/ In q l.
Proof.
  induction l as [|p l IH]; cbn [ins_list]; [intros [H|[]]; auto|]. destruct (cmp k (fst p)); cbn [In]; intuition.
Qed.
Lemma ins_list_asc k v l : ascending cmp l -> ascending cmp (ins_list k v l).
Proof.
  unfold ascending. induction l as [|p l IH]; intros S; cbn [ins_list]; [repeat constructor|].
  pose proof S as S0. apply StronglySorted_inv in S. destruct S as [S F]. rewrite Forall_forall in F. destruct (cmp k (fst p)) eqn:Ek.
  - constructor; auto. apply Forall_forall. intros q Hq. cbn [fst]. rewrite (ol_eq _ O _ _ (fst q) Ek). apply F; auto.
  - constructor; auto. apply Forall_forall. intros q [<-|Hq]; auto. cbn [fst]. apply (ol_trans _ O _ _ _ Ek). apply F; auto.
  - constructor; [apply IH; auto|]. apply Forall_forall. intros q Hq. destruct (ins_list_in _ _ _ _ Hq) as [->|Hq']; [apply cmp_gt; auto|apply F; auto].
Qed.
Lemma find_ins k v l k' : ascending cmp l -> find_list k' (ins_list k v l) = if same cmp k' k then Some (k, v) else find_list k' l.
Proof.
  unfold ascending. induction l as [|p l IH]; intros S; cbn [ins_list].
  - cbn. reflexivity.
  - apply StronglySorted_inv in S. destruct S as [S F]. destruct (cmp k (fst p)) eqn:Ek; cbn [find_list find fst].
    + destruct (same cmp k' k) eqn:E; auto. unfold same in *. rewrite <- (cmp_eq_r _ _ k' Ek). destruct (cmp k' k); try discriminate; reflexivity.
    + destruct (same cmp k' k); auto.
    + change (find _ (ins_list k v l)) with (find_list k' (ins_list k v l)). rewrite IH by exact S.
      unfold same in *. destruct (cmp k' (fst p)) eqn:Ep; auto.
      destruct (cmp k' k) eqn:E2; auto. rewrite <- (ol_eq _ O _ _ (fst p) E2) in Ek. congruence.
Qed.

(** delete *)
Lemma del_min_ok t : t <> E -> exists m t', del_min t = Ok (m, t') /\ inorder t = m :: inorder t'.
Proof.
  induction t as [|c a IHa p b IHb]; intros N; [congruence|]. cbn [del_min]. destruct a as [|c1 a1 p1 b1].
  - destruct b; do 2 eexists; (split; [reflexivity|reflexivity]).
  - destruct (IHa ltac:(discriminate)) as (m & t' & Em & Q). rewrite Em. cbn [bind].
    do 2 eexists. split; [reflexivity|]. rewrite inorder_balance. cbn [inorder] in *. rewrite Q. reflexivity.
Qed.
Lemma del_list_id k l : (forall q, In q l -> cmp k (fst q) <> Eq) -> del_list k l = l.
Proof.
  induction l as [|p l IH]; intros H; auto. cbn. unfold same. pose proof (H p ltac:(left; auto)). destruct (cmp k (fst p)); try congruence; cbn [negb];
  (change (filter _ l) with (del_list k l); rewrite IH; auto; intros; apply H; right; auto).
Qed.
Lemma del_ok k t : ascending cmp (inorder t) -> exists t', del cmp k t = Ok t' /\ inorder t' = del_list k (inorder t).
Proof.
  induction t as [|c a IHa p b IHb]; intros S; [exists E; auto|]. cbn [del inorder]. destruct (asc_app_inv _ _ _ S) as (Sa & Sb & Ha & Hb).
  unfold del_list. rewrite filter_app. cbn [filter]. fold (del_list k (inorder a)) (del_list k (inorder b)). unfold same. destruct (cmp k (fst p)) eqn:Ek; cbn [negb].
  - rewrite (del_list_id k (inorder a)), (del_list_id k (inorder b)).
    2:{ intros q Hq. rewrite (ol_eq _ O _ _ (fst q) Ek), (Hb q Hq). discriminate. }
    2:{ intros q Hq. rewrite (ol_eq _ O _ _ (fst q) Ek), (cmp_lt _ _ (Ha q Hq)). discriminate. }
    destruct a as [|c1 a1 p1 b1]; [eexists; split; [reflexivity|]; reflexivity|].
    destruct b as [|c2 a2 p2 b2]; [eexists; split; [reflexivity|]; cbn [inorder]; rewrite app_nil_r; reflexivity|].
    destruct (del_min_ok (T c2 a2 p2 b2) ltac:(discriminate)) as (m & t' & -> & Q). cbn [bind]. eexists. split; [reflexivity|].
    rewrite inorder_balance, Q. reflexivity.
  - destruct (IHa Sa) as (a' & -> & Q). cbn [bind]. eexists. split; [reflexivity|]. rewrite inorder_balance, Q. rewrite (del_list_id k (inorder b)); auto.
    intros q Hq. rewrite (ol_trans _ O _ _ _ Ek (Hb q Hq)). discriminate.
  - destruct (IHb Sb) as (b' & -> & Q). cbn [bind]. eexists. split; [reflexivity|]. rewrite inorder_balance, Q. rewrite (del_list_id k (inorder a)); auto.
    intros q Hq. apply cmp_gt in Ek. rewrite (cmp_lt _ _ (ol_trans _ O _ _ _ (Ha q Hq) Ek)). discriminate.
Qed.
Lemma delete_ok k t : ascending cmp (inorder t) -> exists t', delete cmp k t = Ok t' /\ inorder t' = del_list k (inorder t).
Proof.
  intros S. destruct (del_ok k t S) as (t' & E1 & Q). unfold delete. rewrite E1. cbn [bind]. destruct t'; eexists; (split; [reflexivity|exact Q]).
Qed.
Lemma del_list_asc k l : ascending cmp l -> ascending cmp (del_list k l).
Proof.
  unfold ascending. induction l as [|p l IH]; intros S; auto. apply StronglySorted_inv in S. destruct S as [S F]. cbn.
  destruct (negb (same cmp k (fst p))); auto. constructor; auto. rewrite Forall_forall in *. intros q Hq. apply filter_In in Hq. apply F; tauto.
Qed.
Lemma find_del k l k' : find_list k' (del_list k l) = if same cmp k' k then None else find_list k' l.
Proof.
  unfold find_list, del_list in *. induction l as [|p l IH]; cbn [filter find].
  - destruct (same cmp k' k); auto.
  - destruct (same cmp k (fst p)) eqn:E1; cbn [negb].
    + rewrite IH. destruct (same cmp k' k) eqn:E2; auto. unfold same in *. destruct (cmp k (fst p)) eqn:Ep; try discriminate.
      rewrite <- (cmp_eq_r _ _ k' Ep). destruct (cmp k' k); try discriminate; reflexivity.
    + cbn [find]. rewrite IH. destruct (same cmp k' (fst p)) eqn:E3; auto. unfold same in *. destruct (cmp k' k) eqn:E2; auto.
      rewrite (ol_eq _ O _ _ (fst p) E2) in E3. destruct (cmp k (fst p)); discriminate.
Qed.

(** folds, extremes, iteration *)
Lemma fold_ok {S} (f : K * V -> S -> S) t : forall s, imap_fold t f s = fold_left (fun s p => f p s) (inorder t) s.
Proof. induction t as [|c a IHa p b IHb]; intros s; auto. cbn [imap_fold inorder]. rewrite fold_left_app. cbn [fold_left]. rewrite IHa, IHb. reflexivity. Qed.
Lemma fold_right_ok {S} (f : K * V -> S -> S) t : forall s, imap_fold_right t f s = fold_right f s (inorder t).
Proof. induction t as [|c a IHa p b IHb]; intros s; auto. cbn [imap_fold_right inorder]. rewrite fold_right_app. cbn [fold_right]. rewrite IHa, IHb. reflexivity. Qed.
Lemma min_ok t : imap_min t = hd_error (inorder t).
Proof.
  induction t as [|c a IHa p b _]; auto. cbn [imap_min inorder]. destruct a as [|c1 a1 p1 b1]; auto. rewrite IHa.
  destruct (inorder (T c1 a1 p1 b1)) eqn:Q; [cbn in Q; apply app_eq_nil in Q; destruct Q; discriminate|reflexivity].
Qed.
Lemma max_ok t : imap_max t = hd_error (rev (inorder t)).
Proof.
  induction t as [|c a _ p b IHb]; auto. cbn [imap_max inorder]. rewrite rev_app_distr. cbn [rev]. destruct b as [|c1 a1 p1 b1]; auto. rewrite IHb.
  destruct (rev (inorder (T c1 a1 p1 b1))) eqn:Q; [|reflexivity]. apply (f_equal (@length _)) in Q. rewrite rev_length in Q. cbn in Q. rewrite app_length in Q. cbn in Q. lia.
Qed.
Lemma next_from_ok t : forall q, t <> E -> exists p q', next_from t q = Ok (p, q') /\
  concat (map inorder (t :: q)) = p :: concat (map inorder q') /\ (Forall (fun t => t <> E) q -> Forall (fun t => t <> E) q').
Proof.
  induction t as [|c a IHa p b _]; intros q N; [congruence|]. cbn [next_from]. destruct a as [|c1 a1 p1 b1].
  - do 2 eexists. split; [reflexivity|]. destruct b; split; auto.
    intros F; constructor; auto; discriminate.
  - destruct (IHa (T c E p b :: q) ltac:(discriminate)) as (p' & q' & E1 & Q & F). rewrite E1. do 2 eexists. split; [reflexivity|]. split.
    + rewrite <- Q. cbn [map concat]. cbn [inorder]. rewrite <- !app_assoc. cbn [app]. reflexivity.
    + intros F'. apply F. constructor; auto. discriminate.
Qed.
Lemma iterate_ok : forall fuel q, Forall (fun t => t <> E) q -> length (concat (map inorder q)) <= fuel ->
  iterate fuel q = Ok (concat (map inorder q)).
Proof.
  induction fuel as [|fuel IH]; intros q F L.
  - destruct q as [|t q]; auto. exfalso. pose proof (Forall_inv F) as N. destruct t; [congruence|]. cbn in L. rewrite !app_length in L. cbn in L. lia.
  - destruct q as [|t q]; auto. cbn [iterate]. destruct (next_from_ok t q (Forall_inv F)) as (p & q' & -> & Q & F'). cbn [bind].
    rewrite Q in *. cbn [length] in L. rewrite (IH q' (F' (Forall_inv_tail F)) ltac:(lia)). reflexivity.
Qed.
Lemma node_count_ok t : node_count t = length (inorder t).
Proof. induction t as [|c a IHa p b IHb]; auto. cbn [node_count inorder]. rewrite app_length. cbn [length]. lia. Qed.
Lemma imap_iterate_ok t : imap_iterate t = Ok (inorder t).
Proof.
  unfold imap_iterate. destruct t as [|c a p b]; auto. rewrite iterate_ok.
  - cbn [map concat]. rewrite app_nil_r. reflexivity.
  - constructor; [discriminate|constructor].
  - cbn [map concat]. rewrite app_nil_r, node_count_ok. lia.
Qed.

(** histories *)
Lemma history_ok h : exists t, run_history cmp h = Ok t /\ ascending cmp (inorder t) /\ forall k, find_list k (inorder t) = entry cmp h k.
Proof.
  induction h as [|o h (t & Et & S & F)]; [exists E; repeat split; constructor|]. cbn [run_history]. rewrite Et. cbn [bind]. destruct o as [k v|k]; cbn [apply_op entry].
  - destruct (insert_ok k v t S) as (t' & E1 & Q). exists t'. split; [exact E1|]. rewrite Q. split; [apply ins_list_asc; exact S|].
    intros k'. rewrite find_ins by exact S. rewrite F. reflexivity.
  - destruct (delete_ok k t S) as (t' & E1 & Q). exists t'. split; [exact E1|]. rewrite Q. split; [apply del_list_asc; exact S|].
    intros k'. rewrite find_del. rewrite F. reflexivity.
Qed.
Lemma find_in l p : ascending cmp l -> (In p l <-> find_list (fst p) l = Some p).
Proof.
  unfold ascending. intros S. split.
  - induction l as [|q l IH]; [intros []|]. apply StronglySorted_inv in S. destruct S as [S F]. intros [->|H]; cbn; unfold same.
    + rewrite cmp_refl. reflexivity.
    + rewrite Forall_forall in F. rewrite (cmp_lt _ _ (F p H)). apply IH; auto.
  - intros H. apply find_some in H. tauto.
Qed.
Lemma populate_puts l : forall h t, run_history cmp h = Ok t -> populate cmp t l = run_history cmp (rev (map (fun p => Put (fst p) (snd p)) l) ++ h).
Proof.
  induction l as [|[k v] l IH]; intros h t E1; cbn [populate map rev app]; auto. rewrite <- app_assoc. cbn [app fst snd].
  destruct (history_ok (Put k v :: h)) as (t1 & E2 & _). pose proof E2 as E3. cbn [run_history] in E2. rewrite E1 in E2. cbn [bind apply_op] in E2. rewrite E2. cbn [bind]. rewrite (IH _ _ E3). reflexivity.
Qed.
End P.

(** balance after insertions only *)
Section RB.
Context {K V : Type} (cmp : K -> K -> comparison).
Notation tree := (itree K V).
Inductive rb : tree -> color -> nat -> Prop :=
| rb_E : forall c, rb E c 0
| rb_R : forall l p r n, rb l R n -> rb r R n -> rb (T R l p r) B n
| rb_B : forall c l p r n, rb l B n -> rb r B n -> rb (T B l p r) c (S n).
Inductive nearly : tree -> nat -> Prop :=
| nr_R : forall l p r n, rb l B n -> rb r B n -> nearly (T R l p r) n
| nr_B : forall l p r n, rb l B n -> rb r B n -> nearly (T B l p r) (S n).
Lemma rb_RB t n : rb t R n -> rb t B n.
Proof. intros H. inversion H; subst; constructor; auto. Qed.
Ltac rbinv := repeat match goal with
  | H : rb (T R _ _ _) _ _ |- _ => inversion H; clear H; subst
  | H : rb (T B _ _ _) _ _ |- _ => inversion H; clear H; subst
  | H : rb E _ _ |- _ => inversion H; clear H; subst
  | H : nearly (T _ _ _ _) _ |- _ => inversion H; clear H; subst
  | H : nearly E _ |- _ => inversion H
  end.
Ltac rbfin := repeat match goal with
  | |- rb E _ _ => constructor
  | |- rb (T _ _ _ _) _ _ => constructor
  | |- nearly (T _ _ _ _) _ => constructor
  end; auto using rb_RB.
Lemma balance_left l p r n : nearly l n -> rb r B n -> rb (balance B l p r) B (S n).
Proof.
  intros N Hr.
  destruct l as [|[|] a x b]; [inversion N| |].
  - destruct a as [|[|] a1 q1 a2]; destruct b as [|[|] b1 q2 b2]; destruct r as [|[|] [|[|] r1 q3 r2] y [|[|] r3 q4 r4]]; cbn [balance]; rbinv; rbfin.
  - destruct r as [|[|] [|[|] r1 q3 r2] y [|[|] r3 q4 r4]]; cbn [balance]; rbinv; rbfin.
Qed.
Lemma balance_right l p r n : rb l B n -> nearly r n -> rb (balance B l p r) B (S n).
Proof.
  intros Hl N.
  destruct r as [|[|] a x b]; [inversion N| |].
  - destruct l as [|[|] [|[|] r1 q3 r2] y [|[|] r3 q4 r4]]; destruct a as [|[|] a1 q1 a2]; destruct b as [|[|] b1 q2 b2]; cbn [balance]; rbinv; rbfin.
  - destruct l as [|[|] [|[|] r1 q3 r2] y [|[|] r3 q4 r4]]; cbn [balance]; rbinv; rbfin.
Qed.
Lemma rb_nearly_S t n : t <> E -> rb t B n -> nearly t n.
Proof. intros N H. inversion H; subst; [congruence| |]; constructor; auto using rb_RB. Qed.
Lemma balance_not_E c l p r : balance c l p r <> (E : tree).
Proof.
  unfold balance. destruct c; [discriminate|].
  destruct l as [|[|] [|[|] a1 q1 a2] q [|[|] a3 q3 a4]]; destruct r as [|[|] [|[|] b1 r1 b2] r [|[|] b3 r3 b4]]; discriminate.
Qed.
Lemma balance_red l p r : balance R l p r = (T R l p r : tree).
Proof. reflexivity. Qed.
Lemma ins_rb k v t : forall n, (rb t B n -> nearly (ins cmp k v t) n) /\ (rb t R n -> rb (ins cmp k v t) B n).
Proof.
  induction t as [|c a IHa p b IHb]; intros n; cbn [ins].
  - split; intros H; inversion H; subst; repeat constructor.
  - destruct c.
    + split; intros H; [|inversion H]. inversion H; subst. destruct (cmp k (fst p)).
      * constructor; auto using rb_RB.
      * rewrite balance_red. constructor; auto using rb_RB. apply (IHa n); auto.
      * rewrite balance_red. constructor; auto using rb_RB. apply (IHb n); auto.
    + assert (rb (T B a p b) B n -> rb (match cmp k (fst p) with Lt => balance B (ins cmp k v a) p b | Eq => T B a (k, v) b | Gt => balance B a p (ins cmp k v b) end) B n) as G.
      { intros H. inversion H; subst. destruct (cmp k (fst p)).
        - constructor; auto.
        - apply balance_left; auto. apply (IHa n0); auto.
        - apply balance_right; auto. apply (IHb n0); auto. }
      split; intros H.
      * apply rb_nearly_S; auto. destruct (cmp k (fst p)); [discriminate|apply balance_not_E|apply balance_not_E].
      * apply G. apply rb_RB. exact H.
Qed.
Lemma insert_rb k v t t' n : rb t R n -> insert cmp k v t = Ok t' -> exists m, rb t' R m.
Proof.
  intros H E1. unfold insert in E1. pose proof (proj2 (ins_rb k v t n) H) as G. destruct (ins cmp k v t) as [|c a p b]; [discriminate|].
  injection E1 as <-. inversion G; subst; eexists; constructor; eauto using rb_RB.
Qed.
Lemma rb_height (t : tree) c n : rb t c n -> height t <= 2 * n + match c with R => 0 | B => 1 end.
Proof. induction 1; cbn [height] in *; try lia. Qed.
Lemma rb_size (t : tree) c n : rb t c n -> 2 ^ n <= node_count t + 1.
Proof. induction 1; cbn [node_count] in *; try (cbn; lia). Qed.
Lemma rb_bound (t : tree) n : rb t R n -> height t <= 2 * Nat.log2 (node_count t + 1).
Proof.
  intros H. pose proof (rb_height _ _ _ H) as Hh. cbv iota in Hh. pose proof (rb_size _ _ _ H) as Hs. apply Nat.log2_le_mono in Hs. rewrite Nat.log2_pow2 in Hs by lia. lia.
Qed.
End RB.
