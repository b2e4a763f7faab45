From Coq Require Import List Bool Arith Lia.
From Verif Require Import Outcome CplModel CplSpec.
Import ListNotations.

Lemma memq_In : forall x l, memq x l = true <-> In x l.
Proof. intros. unfold memq. rewrite existsb_exists. split. - intros (y & H & E). apply Nat.eqb_eq in E. now subst. - intros H. exists x. split; auto. apply Nat.eqb_refl. Qed.
Lemma blocked_spec : forall h all, blocked h all = true <-> exists s m r, In s all /\ elems s = m :: r /\ In h r.
Proof.
  intros h all. unfold blocked. rewrite existsb_exists. split.
  - intros (s & H & E). destruct (elems s) as [|m r] eqn:El; [discriminate|]. exists s, m, r. split; auto. split; auto. now apply memq_In.
  - intros (s & m & r & H & El & Hr). exists s. split; auto. rewrite El. now apply memq_In.
Qed.
Lemma select_spec : forall all ss, select all ss = FALSE \/ exists pre s h r post, ss = pre ++ s :: post /\ elems s = h :: r /\ select all ss = h /\ blocked h all = false /\ forall s0 h0 r0, In s0 pre -> elems s0 = h0 :: r0 -> blocked h0 all = true.
Proof.
  intros all ss. induction ss as [|s t IH]; cbn [select]; auto. destruct (elems s) as [|h r] eqn:E.
  - destruct IH as [IH|(pre & s1 & h & r & post & -> & E1 & E2 & B & P)]; auto. right. exists (s :: pre), s1, h, r, post. split; auto. split; auto. split; auto. split; auto. intros s0 h0 r0 [<-|H] E0; [congruence|eauto].
  - destruct (blocked h all) eqn:B.
    + destruct IH as [IH|(pre & s1 & h1 & r1 & post & -> & E1 & E2 & B1 & P)]; auto. right. exists (s :: pre), s1, h1, r1, post. split; auto. split; auto. split; auto. split; auto. intros s0 h0 r0 [<-|H] E0; [congruence|eauto].
    + right. exists [], s, h, r, t. cbn [app]. repeat split; auto.
Qed.
Lemma select_none : forall all ss s h r, In s ss -> elems s = h :: r -> blocked h all = false -> (forall s x, In s ss -> In x (elems s) -> x <> FALSE) -> select all ss <> FALSE.
Proof.
  intros all ss. induction ss as [|s0 t IH]; intros s h r H E B Nf; [destruct H|]. cbn [select]. destruct (elems s0) as [|h0 r0] eqn:E0.
  - destruct H as [->|H]; [congruence|]. eapply IH; eauto. intros s1 x H1. apply Nf. now right.
  - destruct (blocked h0 all) eqn:B0. + destruct H as [->|H]; [congruence|]. eapply IH; eauto. intros s1 x H1. apply Nf. now right. + apply (Nf s0); [now left|]. rewrite E0. now left.
Qed.
Lemma subseq_refl : forall {A} (l : list A), subseq l l. Proof. induction l; constructor; auto. Qed.
Lemma subseq_tail : forall {A} (x : A) s r, subseq (x :: s) r -> subseq s r.
Proof. intros A x s r H. remember (x :: s) as l. revert x s Heql. induction H; intros y t E; [discriminate| |]. - injection E as -> ->. now constructor. - constructor. eauto. Qed.
Lemma subseq_In : forall {A} (s r : list A), subseq s r -> forall x, In x s -> In x r.
Proof. induction 1; intros y Hy; [destruct Hy| |right; auto]. destruct Hy as [->|Hy]; [left; auto|right; auto]. Qed.
Lemma subseq_trans : forall {A} (a b c : list A), subseq a b -> subseq b c -> subseq a c.
Proof.
  intros A a b c H1 H2. revert a H1. induction H2; intros a H1.
  - inversion H1. constructor.
  - inversion H1; subst; constructor; auto.
  - constructor; auto.
Qed.
Lemma subseq_head_neq : forall {A} (h : A) t a r, h <> a -> subseq (h :: t) (a :: r) -> subseq (h :: t) r.
Proof. intros A h t a r N H. inversion H; subst; auto. contradiction. Qed.

Inductive merged : list seq -> list nat -> Prop :=
| mg_nil : forall ss, (forall s, In s ss -> elems s = []) -> merged ss []
| mg_step : forall ss n r, (exists s t, In s ss /\ elems s = n :: t) -> blocked n ss = false -> merged (map (advance n) ss) r -> merged ss (n :: r).
Lemma advance_elems : forall n s, elems (advance n s) = elems s \/ elems s = n :: elems (advance n s).
Proof. intros n s. unfold advance. destruct (elems s) as [|h r] eqn:E; auto. destruct (Nat.eqb_spec n h); [right; subst; cbn; auto|left; auto]. Qed.
Lemma merged_sound : forall ss r, merged ss r -> NoDup r /\ (forall s, In s ss -> subseq (elems s) r) /\ (forall x, In x r -> exists s, In s ss /\ In x (elems s)).
Proof.
  induction 1 as [ss H|ss n r (s0 & t0 & H0 & E0) B M (ND & SS & BK)].
  - split; [constructor|]. split; [intros s Hs; rewrite (H s Hs); constructor|intros x []].
  - assert (Nb : forall s m t, In s ss -> elems s = m :: t -> ~ In n t). { intros s m t Hs E Hn. assert (blocked n ss = true); [|congruence]. apply blocked_spec. eauto 6. }
    assert (Nn : ~ In n r).
    { intros Hn. destruct (BK n Hn) as (s1 & H1 & H2). apply in_map_iff in H1. destruct H1 as (s & <- & Hs). unfold advance in H2. destruct (elems s) as [|h t] eqn:E; [rewrite E in H2; destruct H2|].
      destruct (Nat.eqb_spec n h) as [->|N]; [cbn in H2; exact (Nb s h t Hs E H2)|]. rewrite E in H2. destruct H2 as [->|H2]; [congruence|exact (Nb s h t Hs E H2)]. }
    split; [constructor; auto|]. split.
    + intros s Hs. assert (Ha : subseq (elems (advance n s)) r) by (apply SS; now apply in_map). destruct (advance_elems n s) as [E|E]; [rewrite <- E; now constructor|]. rewrite E. now constructor.
    + intros x [<-|Hx]; [exists s0; rewrite E0; split; auto; now left|]. destruct (BK x Hx) as (s1 & H1 & H2). apply in_map_iff in H1. destruct H1 as (s & <- & Hs). exists s. split; auto. destruct (advance_elems n s) as [E|E]; [now rewrite <- E|rewrite E; now right].
Qed.
Definition total (ss : list seq) : nat := list_sum (map (fun s => length (elems s)) ss).
Lemma advance_len : forall n s, length (elems (advance n s)) <= length (elems s).
Proof. intros n s. destruct (advance_elems n s) as [E|E]; [now rewrite E|]. apply (f_equal (@length nat)) in E. cbn in E. lia. Qed.
Lemma total_le : forall n ss, total (map (advance n) ss) <= total ss.
Proof. unfold total. induction ss as [|s t IH]; cbn [map list_sum fold_right]; auto. pose proof (advance_len n s). unfold list_sum in IH. lia. Qed.
Lemma total_lt : forall n ss s t, In s ss -> elems s = n :: t -> total (map (advance n) ss) < total ss.
Proof.
  unfold total. induction ss as [|s0 ss IH]; intros s t H E; [destruct H|]. cbn [map list_sum fold_right]. change (fold_right Nat.add 0) with list_sum in *. pose proof (advance_len n s0). pose proof (total_le n ss) as T. unfold total in T. destruct H as [->|H].
  - unfold advance at 1. rewrite E, Nat.eqb_refl. cbn [elems length]. lia.
  - specialize (IH s t H E). lia.
Qed.
Lemma dotted_advance : forall n s, dotted (advance n s) = dotted s.
Proof. intros n s. unfold advance. destruct (elems s); auto. destruct (n =? n0); auto. Qed.

(** the candidate exists when a consistent order does *)
Lemma candidate : forall r ss, NoDup r -> (forall s, In s ss -> subseq (elems s) r) -> (exists s, In s ss /\ elems s <> []) -> exists s h t, In s ss /\ elems s = h :: t /\ blocked h ss = false.
Proof.
  induction r as [|a r IH]; intros ss ND SS (s & Hs & Ne).
  - specialize (SS s Hs). inversion SS; congruence.
  - assert (Dec : (exists s t, In s ss /\ elems s = a :: t) \/ ~ (exists s t, In s ss /\ elems s = a :: t)).
    { clear. induction ss as [|s ss [IH|IH]].
      - right. intros (? & ? & [] & _).
      - left. destruct IH as (s0 & t & H & E). exists s0, t. split; auto. now right.
      - destruct (elems s) as [|h t] eqn:E; [|destruct (Nat.eq_dec h a) as [->|N]; [left; exists s, t; split; auto; now left|]]; right; intros (s0 & t0 & [<-|H] & E0); try congruence; apply IH; eauto. }
    inversion ND as [|? ? Na ND']; subst. destruct Dec as [(s1 & t & H1 & E1)|No].
    + exists s1, a, t. split; auto. split; auto. destruct (blocked a ss) eqn:B; auto. apply blocked_spec in B. destruct B as (s2 & m & t2 & H2 & E2 & H3). exfalso. specialize (SS s2 H2). rewrite E2 in SS. inversion SS; subst; apply Na.
      * eapply subseq_In; eauto.
      * eapply subseq_In; [eauto|now right].
    + apply IH; auto; [|eauto]. intros s1 H1. specialize (SS s1 H1). destruct (elems s1) as [|h t] eqn:E; [constructor|]. apply (subseq_head_neq h t a r); auto. intros ->. apply No. eauto.
Qed.
Lemma merge_loop_sound : forall f ss acc o, merge_loop f ss acc = Ok (Some o) -> exists r, o = rev acc ++ r /\ merged ss r.
Proof.
  induction f; intros ss acc o H; cbn [merge_loop] in H; [discriminate|]. destruct (forallb nullp ss) eqn:F.
  - injection H as <-. exists []. split; [now rewrite app_nil_r|]. constructor. intros s Hs. rewrite forallb_forall in F. specialize (F s Hs). unfold nullp in F. destruct (elems s); auto. discriminate.
  - destruct (Nat.eqb_spec (select ss ss) FALSE) as [E|N]; [discriminate|]. destruct (IHf _ _ _ H) as (r & -> & M). exists (select ss ss :: r). split; [cbn [rev]; now rewrite <- app_assoc|].
    destruct (select_spec ss ss) as [E|(pre & s & h & t & post & E1 & E2 & E3 & B & _)]; [contradiction|]. constructor; auto.
    + exists s, t. rewrite E3. split; auto. rewrite E1. apply in_or_app. right. now left.
    + now rewrite E3.
Qed.
Lemma merge_loop_total : forall f ss acc, total ss < f -> exists o, merge_loop f ss acc = Ok o /\
  (o = None -> (forall s, In s ss -> dotted s = false) -> (forall s x, In s ss -> In x (elems s) -> x <> FALSE) -> forall r, ~ (NoDup r /\ forall s, In s ss -> subseq (elems s) r)) /\
  (o <> None -> forall s, In s ss -> dotted s = false).
Proof.
  induction f; intros ss acc Hf; [lia|]. cbn [merge_loop]. destruct (forallb nullp ss) eqn:F.
  - eexists. split; [reflexivity|]. split; [discriminate|]. intros _ s Hs. rewrite forallb_forall in F. specialize (F s Hs). unfold nullp in F. destruct (elems s); [|discriminate]. now destruct (dotted s).
  - destruct (Nat.eqb_spec (select ss ss) FALSE) as [E|N].
    + exists None. split; auto. split; [|congruence]. intros _ D Nf r (ND & SS). assert (Ex : exists s, In s ss /\ elems s <> []).
      { clear - F D. induction ss as [|s t IH]; [discriminate|]. cbn [forallb] in F. apply andb_false_iff in F. destruct F as [F|F].
        - exists s. split; [now left|]. unfold nullp in F. rewrite (D s) in F by now left. destruct (elems s); discriminate.
        - destruct IH as (s0 & H & E); auto. { intros; apply D; now right. } exists s0. split; auto. now right. }
      destruct (candidate r ss ND SS Ex) as (s & h & t & Hs & Eh & B). exact (select_none ss ss s h t Hs Eh B Nf E).
    + destruct (select_spec ss ss) as [E|(pre & s & h & t & post & E1 & E2 & E3 & B & _)]; [contradiction|]. rewrite E3 in *. assert (Hs : In s ss) by (rewrite E1; apply in_or_app; right; now left).
      destruct (IHf (map (advance h) ss) (h :: acc)) as (o & Eo & A & D). { pose proof (total_lt h ss s t Hs E2). lia. }
      exists o. split; auto. split.
      * intros On Dt Nf r (ND & SS). apply (A On) with (r := r).
        -- intros s1 H1. apply in_map_iff in H1. destruct H1 as (s2 & <- & H2). rewrite dotted_advance. auto.
        -- intros s1 x H1 Hx. apply in_map_iff in H1. destruct H1 as (s2 & <- & H2). apply (Nf s2); auto. destruct (advance_elems h s2) as [E|E]; [now rewrite <- E|rewrite E; now right].
        -- split; auto. intros s1 H1. apply in_map_iff in H1. destruct H1 as (s2 & <- & H2). specialize (SS s2 H2). destruct (advance_elems h s2) as [E|E]; [now rewrite E|]. rewrite E in SS. now apply subseq_tail in SS.
      * intros On s1 H1. rewrite <- (dotted_advance h). apply D; auto. now apply in_map.
Qed.
Lemma merge_first : forall ss h r, merged ss (h :: r) -> blocked h ss = false.
Proof. intros ss h r M. inversion M; auto. Qed.
