(** Invariants of promises. *)
From Coq Require Import List Bool Arith Lia.
From Verif Require Import PromModel PromSpec.
Import ListNotations.

(** the outcome of p, if it is settled *)
Definition out s p : option pcode :=
  match sta (cont s (ptr s p)) with Unforced => None | _ => Some (code (cont s (ptr s p))) end.
Definition vis s p c : Prop := c = ptr s p \/ (sta (cont s c) <> Unforced /\ out s p = Some (code (cont s c))).
Definition wfc (v : pstate) (k : pcode) : Prop :=
  match v with Unforced => True | Forced => exists vs, k = CVals vs | Exception => exists e, k = CExc e end.
Definition resok (m : bool) s r : Prop :=
  match r with RProm q => q < np s /\ (m = true -> out s q <> None) | _ => True end.
Definition mv (m : bool) s r v k : Prop :=
  (v <> Unforced -> out s r = Some k) /\ (v = Unforced -> m = false /\ out s r = None).
Definition linkd (m : bool) s r cc : Prop :=
  cc < np s /\ if m then sta (cont s cc) <> Unforced /\ out s r = Some (code (cont s cc)) else cc = ptr s r.
Definition at_ s p c : Prop := p < np s /\ c < np s /\ vis s p c.
Definition holds s t p c : Prop := at_ s p c /\ lock s c = Some t /\ sta (cont s c) = Unforced.
Definition dst (m : bool) s v k a : Prop :=
  match a with
  | AForce => v = Forced /\ (exists vs, k = CVals vs)
  | ARaise => v = Exception /\ (exists e, k = CExc e)
  | AMove r => r < np s /\ mv m s r v k /\ wfc v k
  end.
Definition PI (m : bool) s t (x : pc) : Prop :=
  match x with
  | Idle => True
  | F0 p => p < np s
  | F1 p c | F3 p c => at_ s p c
  | F2 p c v => at_ s p c /\ sta (cont s c) = v /\ v <> Unforced
  | C0 p r => p < np s /\ resok m s r
  | C1 p c r => at_ s p c /\ resok m s r
  | C2 p c r => holds s t p c /\ resok m s (RProm r)
  | C3 p c r cc => holds s t p c /\ resok m s (RProm r) /\ linkd m s r cc
  | C4 p c r cc k => holds s t p c /\ resok m s (RProm r) /\ linkd m s r cc /\ k = code (cont s cc)
  | C5 p c r cc => holds s t p c /\ resok m s (RProm r) /\ linkd m s r cc /\ code (cont s c) = code (cont s cc)
  | CW p c k v a => holds s t p c /\ dst m s v k a
  | C6 p c v a => holds s t p c /\ dst m s v (code (cont s c)) a
  | C7 p c r => at_ s p c /\ lock s c = Some t /\ r < np s /\ mv m s r (sta (cont s c)) (code (cont s c))
  | C8 p c a => at_ s p c /\ lock s c = Some t /\ match a with AMove _ => m = true -> sta (cont s c) <> Unforced | _ => sta (cont s c) <> Unforced end
  | H4 p c => at_ s p c /\ sta (cont s c) <> Unforced
  end.
Definition holder (x : pc) (c : nat) : Prop :=
  match x with
  | C2 _ c' _ | C3 _ c' _ _ | C4 _ c' _ _ _ | C5 _ c' _ _ | CW _ c' _ _ _ | C6 _ c' _ _ | C7 _ c' _ | C8 _ c' _ => c' = c
  | _ => False
  end.
Record inv (m : bool) (s : st) : Prop := {
  i_ptr : forall p, p < np s -> ptr s p < np s;
  i_wf : forall c, c < np s -> wfc (sta (cont s c)) (code (cont s c));
  i_th : forall t, PI m s t (th s t);
  i_lock : forall c t, c < np s -> lock s c = Some t -> holder (th s t) c;
  i_runs : forall p k, In (p, k) (runs s) -> p < np s;
  i_turn : m = false -> forall t u, th s t <> Idle -> th s u <> Idle -> t = u
}.
(** what a step leaves alone *)
Record ext (m : bool) (s s' : st) : Prop := {
  x_np : np s <= np s';
  x_set : forall c, c < np s -> sta (cont s c) <> Unforced -> cont s' c = cont s c;
  x_out : forall p k, p < np s -> out s p = Some k -> out s' p = Some k;
  x_vis : m = true -> forall p c, p < np s -> c < np s -> vis s p c -> vis s' p c
}.
Lemma upd_same {A} (f : nat -> A) i v : upd f i v i = v.
Proof. unfold upd. now rewrite Nat.eqb_refl. Qed.
Lemma upd_other {A} (f : nat -> A) i v j : j <> i -> upd f i v j = f j.
Proof. unfold upd. destruct (Nat.eqb_spec j i); congruence. Qed.

Lemma at_frame s s' p c : ext true s s' -> at_ s p c -> at_ s' p c.
Proof. intros X (A & B & C). pose proof (x_np _ _ _ X). split; [lia|]. split; [lia|]. now apply (x_vis _ _ _ X). Qed.
Lemma res_frame s s' r : ext true s s' -> resok true s r -> resok true s' r.
Proof.
  intros X. destruct r; cbn; auto. intros (A & B). pose proof (x_np _ _ _ X). split; [lia|]. intros _.
  destruct (out s r) eqn:Q; [|now specialize (B eq_refl)]. rewrite (x_out _ _ _ X _ _ A Q). discriminate.
Qed.
Lemma link_frame s s' r cc : ext true s s' -> r < np s -> linkd true s r cc -> linkd true s' r cc.
Proof.
  intros X R (A & B & C). pose proof (x_np _ _ _ X). split; [lia|]. rewrite (x_set _ _ _ X) by auto. split; auto.
  now apply (x_out _ _ _ X).
Qed.
Lemma link_code s s' r cc : ext true s s' -> linkd true s r cc -> code (cont s' cc) = code (cont s cc).
Proof. intros X (A & B & C). now rewrite (x_set _ _ _ X). Qed.
Lemma mv_frame s s' r v k : ext true s s' -> r < np s -> mv true s r v k -> mv true s' r v k.
Proof.
  intros X R (A & B). split.
  - intro V. apply (x_out _ _ _ X); auto.
  - intro V. destruct (B V). discriminate.
Qed.
Lemma dst_frame s s' v k a : ext true s s' -> dst true s v k a -> dst true s' v k a.
Proof.
  intros X. destruct a; cbn; auto. intros (A & B & C). pose proof (x_np _ _ _ X).
  split; [lia|]. split; auto. eapply mv_frame; eauto.
Qed.
Lemma PI_frame s s' u x : ext true s s' ->
  (forall c, c < np s -> lock s c = Some u -> lock s' c = Some u /\ cont s' c = cont s c) -> PI true s u x -> PI true s' u x.
Proof.
  intros X L. pose proof (x_np _ _ _ X) as N.
  assert (HH : forall p c, holds s u p c -> holds s' u p c /\ cont s' c = cont s c).
  { intros p c (A & B & C). destruct A as (A1 & A2 & A3). destruct (L c A2 B) as (L1 & L2).
    split; [|exact L2]. split; [|split; [exact L1|now rewrite L2]].
    split; [lia|]. split; [lia|]. now apply (x_vis _ _ _ X). }
  destruct x; unfold PI; auto; intros I.
  - lia.
  - now apply (at_frame s).
  - destruct I as (A & B & C). destruct A as (A1 & A2 & A3). split; [now apply (at_frame s)|].
    rewrite (x_set _ _ _ X); auto. congruence.
  - now apply (at_frame s).
  - destruct I as (A & B). split; [lia|]. now apply (res_frame s).
  - destruct I as (A & B). split; [now apply (at_frame s)|]. now apply (res_frame s).
  - destruct I as (A & B). split; [now apply HH|]. now apply (res_frame s).
  - destruct I as (A & B & C). split; [now apply HH|]. split; [now apply (res_frame s)|]. destruct B. now apply (link_frame s).
  - destruct I as (A & B & C & D). split; [now apply HH|]. split; [now apply (res_frame s)|]. destruct B as (B & _).
    rewrite (link_code s s' r cc) by auto. split; auto. now apply (link_frame s).
  - destruct I as (A & B & C & D). destruct (HH _ _ A) as (A1 & A2). split; [exact A1|].
    split; [now apply (res_frame s)|]. destruct B as (B & _).
    rewrite (link_code s s' r cc), A2 by auto. split; auto. now apply (link_frame s).
  - destruct I as (A & B). split; [now apply HH|]. now apply (dst_frame s).
  - destruct I as (A & B). destruct (HH _ _ A) as (A1 & A2). split; [exact A1|]. rewrite A2. now apply (dst_frame s).
  - destruct I as (A & B & C & D). pose proof A as (A1 & A2 & A3). destruct (L c A2 B) as (L1 & L2).
    split; [now apply (at_frame s)|]. split; auto. split; [lia|]. rewrite L2. now apply (mv_frame s).
  - destruct I as (A & B & C). pose proof A as (A1 & A2 & A3). destruct (L c A2 B) as (L1 & L2).
    split; [now apply (at_frame s)|]. split; auto. rewrite L2. auto.
  - destruct I as (A & B). pose proof A as (A1 & A2 & A3). split; [now apply (at_frame s)|].
    now rewrite (x_set _ _ _ X).
Qed.
