(** The union-find of %interleave-equal?. *)
From Coq Require Import List ZArith Bool Lia Relations PeanoNat.
From Verif Require Import EqualModel.
Import ListNotations.

Lemma upd_len l : forall i c, length (upd_nth l i c) = length l.
Proof. induction l as [|x l IH]; intros [|i] c; cbn; auto. Qed.
Lemma upd_same l : forall i c d, i < length l -> nth i (upd_nth l i c) d = c.
Proof. induction l as [|x l IH]; intros [|i] c d H; cbn in *; try lia; auto. apply IH. lia. Qed.
Lemma upd_other l : forall i j c d, i <> j -> nth j (upd_nth l i c) d = nth j l d.
Proof. induction l as [|x l IH]; intros [|i] [|j] c d H; cbn; auto; try congruence. Qed.
Definition nb (s : uf) : nat := length (boxes s).
Inductive root (s : uf) : nat -> nat -> nat -> Prop :=
| root_0 b c : b < nb s -> unbox s b = Count c -> root s b b 0
| root_S b p r n : b < nb s -> unbox s b = Link p -> root s p r n -> root s b r (S n).
Definition rooted (s : uf) (b r : nat) : Prop := exists n, root s b r n.
Lemma root_fun s b r n : root s b r n -> forall r' n', root s b r' n' -> r = r' /\ n = n'.
Proof.
  induction 1 as [b c L E|b p r n L E R IH]; intros r' n' R'; inversion R' as [? ? L' E'|? ? ? ? L' E' R1]; subst; try congruence; auto.
  assert (p0 = p) by congruence. subst. destruct (IH _ _ R1). subst. auto.
Qed.
Lemma rooted_fun s b r r' : rooted s b r -> rooted s b r' -> r = r'.
Proof. intros [n R] [m R']. now destruct (root_fun _ _ _ _ R _ _ R'). Qed.
Lemma root_lt s b r n : root s b r n -> b < nb s. Proof. destruct 1; auto. Qed.
Lemma root_end s b r n : root s b r n -> r < nb s /\ exists c, unbox s r = Count c.
Proof. induction 1; eauto. Qed.
Lemma root_path s b r n : root s b r n -> exists l, NoDup l /\ length l = S n /\ forall c, In c l -> c < nb s /\ exists k, k <= n /\ root s c r k.
Proof.
  induction 1 as [b c L E|b p r n L E R IH].
  - exists [b]. split; [repeat constructor; auto|]. split; [reflexivity|]. intros x [<-|[]]. split; [assumption|]. exists 0. split; [lia|econstructor; eauto].
  - destruct IH as (l & D & Ln & H). exists (b :: l). split; [|split; [cbn; lia|]].
    + constructor; [|assumption]. intros Hi. destruct (H b Hi) as (_ & k & Lk & Rk).
      assert (RR : root s b r (S n)) by (econstructor; eauto). destruct (root_fun _ _ _ _ Rk _ _ RR). lia.
    + intros x [<-|Hi]; [split; [assumption|]; exists (S n); split; [lia|econstructor; eauto]|].
      destruct (H x Hi) as (A & k & B & C). split; [assumption|]. exists k. split; [lia|assumption].
Qed.
Lemma root_depth s b r n : root s b r n -> n < nb s.
Proof.
  intros R. destruct (root_path _ _ _ _ R) as (l & D & L & H). assert (S n <= nb s); [|lia]. rewrite <- L, <- (seq_length (nb s) 0).
  apply NoDup_incl_length; [assumption|]. intros c Hc. apply in_seq. destruct (H c Hc). lia.
Qed.
Lemma set_nb b c s : nb (set_box b c s) = nb s. Proof. unfold nb. cbn. apply upd_len. Qed.
Lemma unbox_same b c s : b < nb s -> unbox (set_box b c s) b = c. Proof. apply upd_same. Qed.
Lemma unbox_other b c s b' : b <> b' -> unbox (set_box b c s) b' = unbox s b'. Proof. apply upd_other. Qed.
(** shortening a path *)
Lemma compress s b n nn : b < nb s -> unbox s b = Link n -> unbox s n = Link nn ->
  forall k c q, root s c q k -> exists k', k' <= k /\ root (set_box b (Link nn) s) c q k'.
Proof.
  intros Lb Eb En. induction k as [k IH] using lt_wf_ind. intros c q R. inversion R as [? ? L E|? p ? m L E R1]; subst.
  - exists 0. split; [lia|]. econstructor; [now rewrite set_nb|]. rewrite unbox_other; [exact E|]. intros ->. congruence.
  - destruct (Nat.eq_dec b c) as [<-|Nb].
    + assert (p = n) by congruence. subst p. inversion R1 as [? ? L2 E2|? p2 ? m2 L2 E2 R2]; subst; [congruence|].
      assert (p2 = nn) by congruence. subst p2. destruct (IH m2 ltac:(lia) _ _ R2) as (k' & Lk & Rk). exists (S k'). split; [lia|].
      econstructor; [now rewrite set_nb|apply unbox_same; assumption|exact Rk].
    + destruct (IH m ltac:(lia) _ _ R1) as (k' & Lk & Rk). exists (S k'). split; [lia|]. econstructor; [now rewrite set_nb|rewrite unbox_other by assumption; exact E|exact Rk].
Qed.
Definition kept (s s' : uf) : Prop := ht s' = ht s /\ nb s' = nb s /\ rnd s' = rnd s /\ forall c q k, root s c q k -> exists k', k' <= k /\ root s' c q k'.
Lemma kept_refl s : kept s s. Proof. repeat split; auto. intros. eauto. Qed.
Lemma kept_trans a b c : kept a b -> kept b c -> kept a c.
Proof.
  intros (A1 & A2 & A3 & A4) (B1 & B2 & B3 & B4). repeat split; try congruence. intros x q k R. destruct (A4 _ _ _ R) as (k' & L & R'). destruct (B4 _ _ _ R') as (k2 & L2 & R2).
  exists k2. split; [lia|assumption].
Qed.
Lemma find_loop_spec fuel : forall b n s r k, b < nb s -> unbox s b = Link n -> root s n r k -> k < fuel ->
  exists s', find_loop fuel b n s = Some (r, s') /\ kept s s'.
Proof.
  induction fuel as [|f IH]; intros b n s r k Lb Eb R L; [lia|]. cbn [find_loop].
  inversion R as [? ? Ln E|? p ? m Ln E R1]; subst; rewrite E.
  - exists s. split; [reflexivity|apply kept_refl].
  - assert (K : kept s (set_box b (Link p) s)) by (split; [reflexivity|]; split; [apply set_nb|]; split; [reflexivity|]; intros ? ? ?; exact (compress _ _ _ _ Lb Eb E _ _ _)).
    destruct K as (K1 & K2 & K3 & K4). destruct (K4 _ _ _ R1) as (k' & Lk & Rk).
    assert (NE : b <> n). { intros <-. assert (p = b) by congruence. subst p. destruct (root_fun _ _ _ _ R _ _ R1). lia. }
    destruct (IH n p (set_box b (Link p) s) r k') as (s' & Es & Ks); [now rewrite K2|now rewrite unbox_other|assumption|lia|].
    exists s'. split; [exact Es|]. eapply kept_trans; [|exact Ks]. repeat split; assumption.
Qed.
Lemma find_spec b s r : rooted s b r -> exists s', find b s = Some (r, s') /\ kept s s'.
Proof.
  intros [k R]. unfold find. inversion R as [? ? L E|? p ? m L E R1]; subst; rewrite E; [exists s; split; [reflexivity|apply kept_refl]|].
  eapply find_loop_spec; eauto. eapply root_depth; eassumption.
Qed.
(** the invariant *)
Definition uf_ok (s : uf) : Prop := (forall b, b < nb s -> exists r, rooted s b r) /\ forall x b, ht_get (ht s) x = Some b -> b < nb s.
Definition U (s : uf) (x y : nat) : Prop := exists bx by_ r, ht_get (ht s) x = Some bx /\ ht_get (ht s) y = Some by_ /\ rooted s bx r /\ rooted s by_ r.
Lemma kept_rooted s s' c q : kept s s' -> rooted s c q -> rooted s' c q.
Proof. intros (_ & _ & _ & K) [k R]. destruct (K _ _ _ R) as (k' & _ & R'). now exists k'. Qed.
Lemma kept_ok s s' : kept s s' -> uf_ok s -> uf_ok s'.
Proof.
  intros K [A B]. pose proof K as (K1 & K2 & _). split.
  - intros b L. rewrite K2 in L. destruct (A b L) as (r & R). exists r. eapply kept_rooted; eassumption.
  - intros x b H. rewrite K1 in H. rewrite K2. eauto.
Qed.
Lemma kept_U s s' x y : kept s s' -> uf_ok s -> U s' x y -> U s x y.
Proof.
  intros K [A B] (bx & by_ & r & Hx & Hy & Rx & Ry). pose proof K as (K1 & K2 & _). rewrite K1 in Hx, Hy.
  destruct (A _ (B _ _ Hx)) as (r1 & R1). destruct (A _ (B _ _ Hy)) as (r2 & R2).
  pose proof (rooted_fun _ _ _ _ Rx (kept_rooted _ _ _ _ K R1)). pose proof (rooted_fun _ _ _ _ Ry (kept_rooted _ _ _ _ K R2)).
  exists bx, by_, r. subst r1 r2. auto.
Qed.
(** root ry is put under root rx *)
Definition linked (s : uf) (rx ry : nat) (m : Z) : uf := set_box rx (Count m) (set_box ry (Link rx) s).
Lemma linked_nb s rx ry m : nb (linked s rx ry m) = nb s. Proof. unfold linked. now rewrite !set_nb. Qed.
Lemma linked_root s rx ry m : rx <> ry -> rx < nb s -> ry < nb s -> (exists c, unbox s rx = Count c) -> (exists c, unbox s ry = Count c) ->
  forall c q, rooted s c q -> rooted (linked s rx ry m) c (if Nat.eqb q ry then rx else q).
Proof.
  intros NE Lx Ly [cx Ex] [cy Ey]. assert (UX : unbox (linked s rx ry m) rx = Count m) by (apply unbox_same; now rewrite set_nb).
  assert (UY : unbox (linked s rx ry m) ry = Link rx) by (unfold linked; rewrite unbox_other by assumption; now apply unbox_same).
  assert (UO : forall c, c <> rx -> c <> ry -> unbox (linked s rx ry m) c = unbox s c) by (intros; unfold linked; rewrite !unbox_other; auto).
  assert (RX : root (linked s rx ry m) rx rx 0) by (econstructor; [now rewrite linked_nb|exact UX]).
  intros c q [k R]. induction R as [b z L E|b p r n L E R IH].
  - destruct (Nat.eqb_spec b ry) as [->|N].
    + exists 1. econstructor; [now rewrite linked_nb|exact UY|exact RX].
    + destruct (Nat.eq_dec b rx) as [->|N2]; [now exists 0|]. exists 0. econstructor; [now rewrite linked_nb|]. rewrite UO; eauto.
  - destruct IH as [k' R']. exists (S k'). econstructor; [now rewrite linked_nb| |exact R']. rewrite UO; [exact E| |]; intros ->; congruence.
Qed.
Lemma ht_get_put x b s y : ht_get (ht (ht_put x b s)) y = if Nat.eqb x y then Some b else ht_get (ht s) y.
Proof. reflexivity. Qed.
Section Clos.
Context (M : list (nat * nat)).
Definition clos : nat -> nat -> Prop := clos_refl_sym_trans nat (fun a b => In (a, b) M).
End Clos.
Lemma clos_mono M M' a b : (forall p, In p M -> In p M') -> clos M a b -> clos M' a b.
Proof.
  intros H. induction 1; [apply rst_step; auto|apply rst_refl|apply rst_sym; auto|eapply rst_trans; eauto].
Qed.
Definition tracked (s : uf) (M : list (nat * nat)) : Prop := uf_ok s /\ forall a b, U s a b -> clos M a b.
Lemma root_app s c q k z : root s c q k -> root {| ht := ht s; boxes := boxes s ++ [z]; rnd := rnd s |} c q k.
Proof.
  induction 1 as [b d L E|b p r n L E R IH].
  - unfold nb, unbox in *. econstructor; [unfold nb; cbn; rewrite app_length; lia|unfold unbox; cbn; rewrite app_nth1 by lia; exact E].
  - unfold nb, unbox in *. econstructor; [unfold nb; cbn; rewrite app_length; lia|unfold unbox; cbn; rewrite app_nth1 by lia; exact E|assumption].
Qed.
Lemma root_ht s s' c q k : boxes s' = boxes s -> root s c q k -> root s' c q k.
Proof.
  intros E. induction 1; [econstructor; [unfold nb; rewrite E; assumption|unfold unbox; rewrite E; eassumption]|econstructor; [unfold nb; rewrite E; assumption|unfold unbox; rewrite E; eassumption|assumption]].
Qed.
Lemma union_spec x y s M : tracked s M ->
  exists res s', union_find x y s = Some (res, s') /\ rnd s' = rnd s /\ tracked s' (if res then M else (x, y) :: M) /\ (res = true -> clos M x y).
Proof.
  intros [OK T]. pose proof OK as [OK1 OK2]. unfold union_find.
  destruct (ht_get (ht s) x) as [bx|] eqn:EX, (ht_get (ht s) y) as [by_|] eqn:EY.
  - destruct (OK1 _ (OK2 _ _ EX)) as (rx & Rx). destruct (find_spec _ _ _ Rx) as (s1 & E1 & K1). rewrite E1.
    assert (Ry0 : exists ry, rooted s by_ ry) by (apply OK1; eauto). destruct Ry0 as (ry & Ry).
    destruct (find_spec by_ s1 ry (kept_rooted _ _ _ _ K1 Ry)) as (s2 & E2 & K2). rewrite E2.
    pose proof (kept_trans _ _ _ K1 K2) as K. pose proof (kept_ok _ _ K OK) as OK'.
    assert (T' : forall a b, U s2 a b -> clos M a b) by (intros a b Hu; apply T; eapply kept_U; eassumption).
    pose proof K as (Kh & Kn & Kr & _).
    destruct (Nat.eqb_spec rx ry) as [->|NE].
    + exists true, s2. repeat split; try assumption; try (apply OK'). intros _. apply T. exists bx, by_, ry. auto.
    + assert (Rx2 := kept_rooted _ _ _ _ K Rx). assert (Ry2 := kept_rooted _ _ _ _ K Ry).
      destruct Rx2 as [kx Rx2]. destruct Ry2 as [ky Ry2]. destruct (root_end _ _ _ _ Rx2) as (Lx & cx & Ex). destruct (root_end _ _ _ _ Ry2) as (Ly & cy & Ey).
      rewrite Ex, Ey.
      assert (G : forall ra rb m, (ra = rx /\ rb = ry \/ ra = ry /\ rb = rx) -> tracked (linked s2 ra rb m) ((x, y) :: M)).
      { intros ra rb m Hab. assert (LR : forall c q, rooted s2 c q -> rooted (linked s2 ra rb m) c (if Nat.eqb q rb then ra else q)).
        { apply linked_root; destruct Hab as [[-> ->]|[-> ->]]; eauto. }
        split; [split|].
        - intros b L. rewrite linked_nb in L. destruct (proj1 OK' b L) as (q & Q). eauto.
        - intros z b H. rewrite linked_nb. exact (proj2 OK' z b H).
        - intros a b (ba & bb & r & Ha & Hb & Ra & Rb). change (ht (linked s2 ra rb m)) with (ht s2) in Ha, Hb.
          destruct (proj1 OK' _ (proj2 OK' _ _ Ha)) as (qa & Qa). destruct (proj1 OK' _ (proj2 OK' _ _ Hb)) as (qb & Qb).
          pose proof (rooted_fun _ _ _ _ Ra (LR _ _ Qa)) as Fa. pose proof (rooted_fun _ _ _ _ Rb (LR _ _ Qb)) as Fb. rewrite Fa in Fb.
          assert (AB : qa = qb \/ (qa = rx /\ qb = ry) \/ (qa = ry /\ qb = rx)).
          { destruct (Nat.eqb_spec qa rb), (Nat.eqb_spec qb rb); destruct Hab as [[-> ->]|[-> ->]]; subst; auto. }
          assert (MONO : forall u v, clos M u v -> clos ((x, y) :: M) u v) by (intros; eapply clos_mono; [|eassumption]; now right).
          assert (XY : clos ((x, y) :: M) x y) by (apply rst_step; now left).
          rewrite Kh in Ha, Hb.
          assert (UA : qa = rx -> clos M a x). { intros ->. apply T'. exists ba, bx, rx. rewrite Kh. repeat split; auto. now exists kx. }
          assert (UA' : qa = ry -> clos M a y). { intros ->. apply T'. exists ba, by_, ry. rewrite Kh. repeat split; auto. now exists ky. }
          assert (UB : qb = rx -> clos M x b). { intros ->. apply T'. exists bx, bb, rx. rewrite Kh. repeat split; auto. now exists kx. }
          assert (UB' : qb = ry -> clos M y b). { intros ->. apply T'. exists by_, bb, ry. rewrite Kh. repeat split; auto. now exists ky. }
          destruct AB as [->|[[Ea Eb]|[Ea Eb]]].
          + apply MONO, T'. exists ba, bb, qb. rewrite Kh. auto.
          + eapply rst_trans; [apply MONO, UA; exact Ea|]. eapply rst_trans; [exact XY|]. apply MONO, UB'; exact Eb.
          + eapply rst_trans; [apply MONO, UA'; exact Ea|]. eapply rst_trans; [apply rst_sym, XY|]. apply MONO, UB; exact Eb. }
      destruct (cx >? cy)%Z.
      * eexists false, _. split; [reflexivity|]. split; [exact Kr|]. split; [apply G; auto|discriminate].
      * eexists false, _. split; [reflexivity|]. split; [exact Kr|]. split; [apply G; auto|discriminate].
  - destruct (OK1 _ (OK2 _ _ EX)) as (rx & Rx). destruct (find_spec _ _ _ Rx) as (s1 & E1 & K1). rewrite E1.
    pose proof (kept_ok _ _ K1 OK) as OK'. assert (T' : forall a b, U s1 a b -> clos M a b) by (intros a b Hu; apply T; eapply kept_U; eassumption).
    pose proof K1 as (Kh & Kn & Kr & _). assert (Rx1 := kept_rooted _ _ _ _ K1 Rx). destruct Rx1 as [kx Rx1]. destruct (root_end _ _ _ _ Rx1) as (Lx & cx & Ex).
    eexists false, _. split; [reflexivity|]. split; [exact Kr|]. split; [|discriminate].
    assert (RH : forall c q, rooted s1 c q <-> rooted (ht_put y rx s1) c q) by (intros c q; split; intros [k R]; exists k; (eapply root_ht; [|exact R]; reflexivity)).
    assert (MONO : forall u v, clos M u v -> clos ((x, y) :: M) u v) by (intros; eapply clos_mono; [|eassumption]; now right).
    assert (XY : clos ((x, y) :: M) x y) by (apply rst_step; now left).
    assert (RR : rooted s1 rx rx) by (exists 0; econstructor; eauto).
    assert (BX : rooted s1 bx rx) by now exists kx.
    split; [split|].
    + intros b L. destruct (proj1 OK' b L) as (q & Q). exists q. now apply RH.
    + intros z b. rewrite ht_get_put. destruct (Nat.eqb_spec y z); [intros H; injection H as <-; exact Lx|apply (proj2 OK')].
    + intros a b (ba & bb & r & Ha & Hb & Ra & Rb). apply RH in Ra, Rb. rewrite ht_get_put in Ha, Hb.
      destruct (Nat.eqb_spec y a) as [<-|Na], (Nat.eqb_spec y b) as [<-|Nb].
      * apply rst_refl.
      * injection Ha as <-. apply rst_trans with x; [apply rst_sym, XY|]. apply MONO, T'. assert (r = rx) by (exact (rooted_fun _ _ _ _ Ra RR)). subst. exists bx, bb, rx. rewrite Kh. rewrite Kh in Hb. auto.
      * injection Hb as <-. apply rst_trans with x; [|exact XY]. apply MONO, T'. assert (r = rx) by (exact (rooted_fun _ _ _ _ Rb RR)). subst. exists ba, bx, rx. rewrite Kh. rewrite Kh in Ha. auto.
      * apply MONO, T'. exists ba, bb, r. auto.
  - destruct (OK1 _ (OK2 _ _ EY)) as (rx & Rx). destruct (find_spec _ _ _ Rx) as (s1 & E1 & K1). rewrite E1.
    pose proof (kept_ok _ _ K1 OK) as OK'. assert (T' : forall a b, U s1 a b -> clos M a b) by (intros a b Hu; apply T; eapply kept_U; eassumption).
    pose proof K1 as (Kh & Kn & Kr & _). assert (Rx1 := kept_rooted _ _ _ _ K1 Rx). destruct Rx1 as [kx Rx1]. destruct (root_end _ _ _ _ Rx1) as (Lx & cx & Ex).
    eexists false, _. split; [reflexivity|]. split; [exact Kr|]. split; [|discriminate].
    assert (RH : forall c q, rooted s1 c q <-> rooted (ht_put x rx s1) c q) by (intros c q; split; intros [k R]; exists k; (eapply root_ht; [|exact R]; reflexivity)).
    assert (MONO : forall u v, clos M u v -> clos ((x, y) :: M) u v) by (intros; eapply clos_mono; [|eassumption]; now right).
    assert (XY : clos ((x, y) :: M) x y) by (apply rst_step; now left).
    assert (RR : rooted s1 rx rx) by (exists 0; econstructor; eauto).
    assert (BX : rooted s1 by_ rx) by now exists kx.
    split; [split|].
    + intros b L. destruct (proj1 OK' b L) as (q & Q). exists q. now apply RH.
    + intros z b. rewrite ht_get_put. destruct (Nat.eqb_spec x z); [intros H; injection H as <-; exact Lx|apply (proj2 OK')].
    + intros a b (ba & bb & r & Ha & Hb & Ra & Rb). apply RH in Ra, Rb. rewrite ht_get_put in Ha, Hb.
      destruct (Nat.eqb_spec x a) as [<-|Na], (Nat.eqb_spec x b) as [<-|Nb].
      * apply rst_refl.
      * injection Ha as <-. apply rst_trans with y; [exact XY|]. apply MONO, T'. assert (r = rx) by (exact (rooted_fun _ _ _ _ Ra RR)). subst. exists by_, bb, rx. rewrite Kh. rewrite Kh in Hb. auto.
      * injection Hb as <-. apply rst_trans with y; [|apply rst_sym, XY]. apply MONO, T'. assert (r = rx) by (exact (rooted_fun _ _ _ _ Rb RR)). subst. exists ba, by_, rx. rewrite Kh. rewrite Kh in Ha. auto.
      * apply MONO, T'. exists ba, bb, r. auto.
  - set (s1 := {| ht := ht s; boxes := boxes s ++ [Count 1]; rnd := rnd s |}). set (n := length (boxes s)).
    eexists false, _. split; [reflexivity|]. split; [reflexivity|]. split; [|discriminate]. fold s1. fold n.
    set (s2 := ht_put y n (ht_put x n s1)).
    assert (RO : forall c q, rooted s c q -> rooted s2 c q) by (intros c q [k R]; exists k; eapply root_ht; [|apply root_app, R]; reflexivity).
    assert (N2 : nb s2 = S n) by (unfold nb; cbn; rewrite app_length; cbn; fold n; lia).
    assert (RN : rooted s2 n n). { exists 0. econstructor; [lia|]. unfold unbox. cbn. rewrite app_nth2 by (fold n; lia). fold n. rewrite Nat.sub_diag. reflexivity. }
    assert (HG : forall z, ht_get (ht s2) z = if Nat.eqb y z then Some n else if Nat.eqb x z then Some n else ht_get (ht s) z) by reflexivity.
    assert (MONO : forall u v, clos M u v -> clos ((x, y) :: M) u v) by (intros; eapply clos_mono; [|eassumption]; now right).
    assert (XY : clos ((x, y) :: M) x y) by (apply rst_step; now left).
    split; [split|].
    + intros b L. destruct (Nat.eq_dec b n) as [->|]; [eauto|]. destruct (OK1 b) as (q & Q); [unfold nb; fold n; lia|eauto].
    + intros z b. rewrite HG, N2. destruct (Nat.eqb y z); [intros H; injection H as <-; lia|]. destruct (Nat.eqb x z); [intros H; injection H as <-; lia|].
      intros H. apply OK2 in H. unfold nb in H. fold n in H. lia.
    + intros a b (ba & bb & r & Ha & Hb & Ra & Rb).
      assert (CL : forall z bz, ht_get (ht s2) z = Some bz -> (bz = n /\ (z = x \/ z = y)) \/ (bz <> n /\ ht_get (ht s) z = Some bz /\ exists q, rooted s bz q /\ rooted s2 bz q /\ q <> n)).
      { intros z bz. rewrite HG. destruct (Nat.eqb_spec y z); [intros H; injection H as <-; auto|]. destruct (Nat.eqb_spec x z); [intros H; injection H as <-; auto|].
        intros H. right. pose proof (OK2 _ _ H) as L. unfold nb in L. fold n in L. split; [lia|]. split; [assumption|]. destruct (OK1 bz) as (q & Q); [exact L|].
        exists q. split; [assumption|]. split; [auto|]. destruct Q as [k Q]. apply root_end in Q as [Q _]. unfold nb in Q. fold n in Q. lia. }
      assert (INxy : forall z w, (z = x \/ z = y) -> (w = x \/ w = y) -> clos ((x, y) :: M) z w).
      { intros z w [->| ->] [->| ->]; [apply rst_refl|exact XY|apply rst_sym, XY|apply rst_refl]. }
      destruct (CL _ _ Ha) as [[-> Za]|(Na & Ga & qa & Qa & Qa2 & Qn)], (CL _ _ Hb) as [[-> Zb]|(Nb & Gb & qb & Qb & Qb2 & Qn2)].
      * auto.
      * exfalso. apply Qn2. rewrite (rooted_fun _ _ _ _ Qb2 Rb). exact (rooted_fun _ _ _ _ Ra RN).
      * exfalso. apply Qn. rewrite (rooted_fun _ _ _ _ Qa2 Ra). exact (rooted_fun _ _ _ _ Rb RN).
      * apply MONO, T. exists ba, bb, qa. repeat split; auto. rewrite (rooted_fun _ _ _ _ Qa2 Ra). rewrite <- (rooted_fun _ _ _ _ Qb2 Rb). assumption.
Qed.
