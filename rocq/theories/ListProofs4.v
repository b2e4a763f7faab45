(** destructive operations *)
From Coq Require Import List Bool ZArith Lia.
From Verif Require Import Outcome ListModel ListSpec ListProofs ListProofs2 ListProofs3.
Import ListNotations.
Ltac Zify.zify_post_hook ::= idtac.

Lemma bounded_nodup_len : forall (A : list nat) n, NoDup A -> Forall (fun a => a < n) A -> length A <= n.
Proof.
  intros A n N F. rewrite <- (seq_length n 0). apply NoDup_incl_length; auto.
  intros a Ha. rewrite Forall_forall in F. apply in_seq. specialize (F a Ha). lia.
Qed.
Lemma seg_short : forall h v A xs t, seg h v A xs t -> pairp t = false -> length A <= length h.
Proof. intros. eapply bounded_nodup_len; [eapply seg_nodup; eauto|eapply seg_bounds; eauto]. Qed.
Lemma changed_refl : forall A h, changed_only A h h.
Proof. intros A h a _ _. reflexivity. Qed.
Lemma changed_trans : forall A h1 h2 h3, length h1 <= length h2 -> changed_only A h1 h2 -> changed_only A h2 h3 -> changed_only A h1 h3.
Proof. intros A h1 h2 h3 L H1 H2 a La Na. rewrite H2 by (auto; lia). now apply H1. Qed.
Lemma changed_incl : forall A B h1 h2, incl A B -> changed_only A h1 h2 -> changed_only B h1 h2.
Proof. intros A B h1 h2 I H a La Na. apply H; auto. Qed.
Lemma changed_store : forall A a c h, In a A -> changed_only A h (store a c h).
Proof. intros A a c h I b _ Nb. apply store_other. intro. subst. tauto. Qed.
Lemma seg_store : forall h v A xs w a c, seg h v A xs w -> ~ In a A -> seg (store a c h) v A xs w.
Proof. intros. eapply seg_frame; eauto. intros b Hb. apply store_other. intro. subst. tauto. Qed.
Lemma seg_changed : forall h h' B v A xs w, seg h v A xs w -> changed_only B h h' -> (forall a, In a A -> ~ In a B) -> seg h' v A xs w.
Proof.
  intros h h' B v A xs w S Cg D. eapply seg_frame; eauto. intros a Ha. apply Cg; auto.
  pose proof (seg_bounds _ _ _ _ _ S) as F. rewrite Forall_forall in F. auto.
Qed.
Lemma seg_inv_pair : forall h v A xs t, seg h v A xs t -> pairp v = true -> pairp t = false ->
  exists a x d B ys, v = Ptr a /\ A = a :: B /\ xs = x :: ys /\ nth_error h a = Some (x, d) /\ seg h d B ys t.
Proof. intros h v A xs t S P Q. inversion S; subst; [congruence|]. eexists _, _, _, _, _. eauto. Qed.
Lemma seg_inv_nonpair : forall h v A xs t, seg h v A xs t -> pairp v = false -> v = t /\ A = [] /\ xs = [].
Proof. intros h v A xs t S P. inversion S; subst; [auto|discriminate]. Qed.

(** ** reverse! *)
Lemma reverse2x_loop_ok : forall fuel h first result R rs t D ds tail, seg h first R rs t -> pairp t = false -> seg h result D ds tail ->
  NoDup R -> (forall a, In a R -> ~ In a D) -> length R < fuel ->
  exists h' r, reverse2x_loop fuel h first result = Ok (h', r) /\ seg h' r (rev R ++ D) (rev rs ++ ds) tail /\ changed_only R h h' /\ length h' = length h.
Proof.
  induction fuel as [|fuel IH]; intros h first result R rs t D ds tail S Pt Sd N Dj L; [lia|]. cbn [reverse2x_loop].
  destruct (pairp first) eqn:Pf; cbn [negb].
  - destruct (seg_inv_pair _ _ _ _ _ S Pf Pt) as (a & x & d & B & ys & -> & -> & -> & En & S1).
    rewrite (cdr_at _ _ _ _ En), (set_cdr_at _ _ _ _ _ En). cbn [bind]. inversion N as [|? ? Na Nb]; subst. cbn [length] in L.
    destruct (IH (store a (x, result) h) d (Ptr a) B ys t (a :: D) (x :: ds) tail) as (h' & r & E & S' & Cg & Le); auto; try lia.
    + apply seg_store; auto.
    + econstructor; [apply store_same; apply nth_error_Some; congruence|]. apply seg_store; auto. apply Dj. left; auto.
    + intros b Hb [->|Hd]; auto. apply (Dj b); auto. right; auto.
    + exists h', r. split; auto. cbn [rev]. rewrite <- !app_assoc. split; auto. rewrite store_len in Le. split; auto.
      eapply changed_trans; [rewrite store_len; reflexivity|apply changed_store; left; auto|eapply changed_incl; [|exact Cg]; intros b Hb; right; auto].
  - destruct (seg_inv_nonpair _ _ _ _ _ S Pf) as (-> & -> & ->). exists h, result. split; auto. split; auto. split; auto. apply changed_refl.
Qed.
Lemma reverse2x_ok : forall h l tail A xs t, seg h l A xs t -> pairp t = false ->
  exists h' r, reverse2x h l tail = Ok (h', r) /\ seg h' r (rev A) (rev xs) tail /\ changed_only A h h' /\ length h' = length h.
Proof.
  intros h l tail A xs t S Pt. unfold reverse2x. destruct (pairp l) eqn:Pl; cbn [negb].
  - destruct (reverse2x_loop_ok (Datatypes.S (length h)) h l tail A xs t [] [] tail) as (h' & r & E & S' & X); auto.
    + constructor.
    + eapply seg_nodup; eauto.
    + pose proof (seg_short _ _ _ _ _ S Pt). lia.
    + rewrite !app_nil_r in S'. eauto.
  - destruct (seg_inv_nonpair _ _ _ _ _ S Pl) as (-> & -> & ->). exists h, tail. split; auto. split; [constructor|]. split; auto. apply changed_refl.
Qed.

(** ** append! *)
Lemma append2x_loop_ok : forall fuel h l obj cp P ps a x d R rs, seg h l P ps cp -> cp = Ptr a -> nth_error h a = Some (x, d) -> seg h d R rs Nil ->
  NoDup (P ++ a :: R) -> length R < fuel ->
  exists h', append2x_loop fuel h l obj cp = Ok (h', l) /\ seg h' l (P ++ a :: R) (ps ++ x :: rs) obj /\ changed_only (P ++ a :: R) h h' /\ length h' = length h.
Proof.
  induction fuel as [|fuel IH]; intros h l obj cp P ps a x d R rs S -> En Sd N L; [lia|]. cbn [append2x_loop pairp negb].
  rewrite (cdr_at _ _ _ _ En). cbn [bind]. destruct (nullp d) eqn:Nd.
  - assert (d = Nil) by (destruct d; auto; discriminate). subst d. inversion Sd; subst.
    rewrite (set_cdr_at _ _ _ _ _ En). cbn [bind]. eexists; split; [reflexivity|]. split.
    + eapply seg_set_last; [|apply nodup_snoc; exact N]. eapply seg_app; [exact S|]. econstructor; [exact En|constructor].
    + split; [apply changed_store, in_app_iff; right; left; auto|apply store_len].
  - assert (Pd : pairp d = true). { inversion Sd; subst; [discriminate|reflexivity]. }
    destruct (seg_inv_pair _ _ _ _ _ Sd Pd eq_refl) as (b & y & e & B & ys & -> & -> & -> & Eb & Se). cbn [length] in L.
    destruct (IH h l obj (Ptr b) (P ++ [a]) (ps ++ [x]) b y e B ys) as (h' & E & S' & Cg & Le); auto; try lia.
    + eapply seg_app; [exact S|]. econstructor; [exact En|constructor].
    + rewrite <- app_assoc. exact N.
    + rewrite <- !app_assoc in *. cbn [app] in *. eauto.
Qed.
Lemma append2x_ok : forall h l obj A xs, seg h l A xs Nil ->
  exists h' r, append2x h l obj = Ok (h', r) /\ seg h' r A xs obj /\ changed_only A h h' /\ length h' = length h.
Proof.
  intros h l obj A xs S. unfold append2x. pose proof (seg_nodup _ _ _ _ _ S eq_refl) as N. pose proof (seg_short _ _ _ _ _ S eq_refl) as L. destruct (pairp l) eqn:Pl.
  - destruct (seg_inv_pair _ _ _ _ _ S Pl eq_refl) as (b & y & e & B & ys & -> & -> & -> & Eb & Se).
    destruct (append2x_loop_ok (Datatypes.S (length h)) h (Ptr b) obj (Ptr b) [] [] b y e B ys) as (h' & E & S' & X); auto.
    + constructor.
    + eauto 6.
  - destruct (seg_inv_nonpair _ _ _ _ _ S Pl) as (-> & -> & ->). exists h, obj. split; auto. split; [constructor|]. split; auto. apply changed_refl.
Qed.

(** ** delete! *)
Section Eq.
Variable eqm : val -> val -> bool.
Definition other (obj x : val) : bool := negb (eqm obj x).
Lemma deletex_loop_nil : forall fuel h obj cp R rs t, seg h cp R rs t -> pairp t = false -> NoDup R -> length R < fuel ->
  (forall fuel' h' l K ks p y cp' R' rs', length R' < fuel' -> (length R' < length R)%nat ->
    seg h' l (K ++ [p]) (ks ++ [y]) cp' -> seg h' cp' R' rs' t -> NoDup (K ++ [p] ++ R') ->
    exists h2 K2, deletex_loop eqm fuel' h' obj l (Ptr p) cp' = Ok (h2, l) /\ seg h2 l K2 (ks ++ [y] ++ filter (other obj) rs') t /\
      incl K2 (K ++ [p] ++ R') /\ NoDup K2 /\ changed_only (K ++ [p] ++ R') h' h2 /\ length h2 = length h') ->
  exists h2 r K2, deletex_loop eqm fuel h obj cp Nil cp = Ok (h2, r) /\ seg h2 r K2 (filter (other obj) rs) t /\ incl K2 R /\ NoDup K2 /\ changed_only R h h2 /\ length h2 = length h.
Proof.
  induction fuel as [|fuel IH]; intros h obj cp R rs t S Pt N L Sub; [lia|]. cbn [deletex_loop].
  destruct (pairp cp) eqn:Pc; cbn [negb].
  - destruct (seg_inv_pair _ _ _ _ _ S Pc Pt) as (a & x & d & B & ys & -> & -> & -> & En & S1).
    rewrite (car_at _ _ _ _ En), (cdr_at _ _ _ _ En). cbn [bind filter]. unfold other at 1. cbn [length] in L. inversion N; subst.
    destruct (eqm obj x) eqn:Ex; cbn [negb nullp].
    + destruct (IH h obj d B ys t) as (h2 & r & K2 & E & S2 & I2 & N2 & Cg & Le); auto; try lia.
      * intros. eapply Sub; eauto. cbn. lia.
      * exists h2, r, K2. split; auto. split; auto. split; [intros b Hb; right; auto|]. split; auto. split; auto. eapply changed_incl; [|exact Cg]. intros b Hb; right; auto.
    + destruct (Sub fuel h (Ptr a) [] [] a x d B ys) as (h2 & K2 & E & S2 & I2 & N2 & Cg & Le); auto; try lia.
      * cbn. econstructor; [exact En|constructor].
      * exists h2, (Ptr a), K2. auto 8.
  - destruct (seg_inv_nonpair _ _ _ _ _ S Pc) as (-> & -> & ->). exists h, t, []. split; auto. split; [constructor|]. split; [intros b []|]. split; [constructor|]. split; auto. apply changed_refl.
Qed.
Lemma deletex_loop_kept : forall fuel h obj l K ks p y cp R rs t, length R < fuel -> pairp t = false ->
    seg h l (K ++ [p]) (ks ++ [y]) cp -> seg h cp R rs t -> NoDup (K ++ [p] ++ R) ->
    exists h2 K2, deletex_loop eqm fuel h obj l (Ptr p) cp = Ok (h2, l) /\ seg h2 l K2 (ks ++ [y] ++ filter (other obj) rs) t /\
      incl K2 (K ++ [p] ++ R) /\ NoDup K2 /\ changed_only (K ++ [p] ++ R) h h2 /\ length h2 = length h.
Proof.
  induction fuel as [|fuel IH]; intros h obj l K ks p y cp R rs t L Pt Sk S N; [lia|]. cbn [deletex_loop].
  destruct (pairp cp) eqn:Pc; cbn [negb].
  - destruct (seg_inv_pair _ _ _ _ _ S Pc Pt) as (a & x & d & B & ys & -> & -> & -> & En & S1).
    rewrite (car_at _ _ _ _ En), (cdr_at _ _ _ _ En). cbn [bind filter]. unfold other at 1. cbn [length] in L.
    destruct (seg_snoc_inv _ _ _ _ _ _ _ Sk) as (_ & Sk' & Ep & _).
    destruct (eqm obj x) eqn:Ex; cbn [negb nullp].
    + rewrite (set_cdr_at _ _ _ _ _ Ep). cbn [bind].
      assert (Npa : p <> a /\ ~ In p K /\ ~ In p B /\ NoDup (K ++ [p] ++ B)).
      { split; [|split; [|split]].
        - intros ->. cbn [app] in N. apply NoDup_remove_2 in N. apply N, in_app_iff. right; left; auto.
        - cbn [app] in N. apply NoDup_remove_2 in N. intro; apply N, in_app_iff; auto.
        - cbn [app] in N. apply NoDup_remove_2 in N. intro; apply N, in_app_iff; right; right; auto.
        - cbn [app] in *. change (K ++ p :: a :: B) with (K ++ [p] ++ a :: B) in N. rewrite app_assoc in N. apply NoDup_remove_1 in N. rewrite <- app_assoc in N. exact N. }
      destruct Npa as (Npa & NpK & NpB & N').
      erewrite cdr_at by (rewrite store_other by auto; exact En). cbn [bind].
      destruct (IH (store p (y, d) h) obj l K ks p y d B ys t) as (h2 & K2 & E & S2 & I2 & N2 & Cg & Le); auto; try lia.
      * eapply seg_set_last; eauto.
      * apply seg_store; auto.
      * exists h2, K2. split; auto. split; auto. rewrite store_len in Le.
        assert (Inc : incl (K ++ [p] ++ B) (K ++ [p] ++ a :: B)).
        { intros b Hb. rewrite !in_app_iff in *. cbn in *. tauto. }
        split; [intros b Hb; apply Inc, I2, Hb|]. split; auto. split; auto.
        eapply changed_trans; [rewrite store_len; reflexivity|apply changed_store, in_app_iff; right; left; auto|]. eapply changed_incl; eauto.
    + destruct (IH h obj l (K ++ [p]) (ks ++ [y]) a x d B ys t) as (h2 & K2 & E & S2 & I2 & N2 & Cg & Le); auto; try lia.
      * eapply seg_app; [exact Sk|]. econstructor; [exact En|constructor].
      * rewrite <- app_assoc. exact N.
      * exists h2, K2. rewrite <- !app_assoc in *. cbn [app] in *. auto 8.
  - destruct (seg_inv_nonpair _ _ _ _ _ S Pc) as (-> & -> & ->). exists h, (K ++ [p]). split; auto. cbn [filter]. rewrite !app_nil_r. split; [auto|].
    split; [intros b Hb; auto|]. split; [cbn [app] in N; exact N|]. split; auto. apply changed_refl.
Qed.
Lemma deletex_ok : forall h obj l A xs t, seg h l A xs t -> pairp t = false ->
  exists h' r K, deletex eqm h obj l = Ok (h', r) /\ seg h' r K (filter (other obj) xs) t /\ incl K A /\ NoDup K /\ changed_only A h h' /\ length h' = length h.
Proof.
  intros h obj l A xs t S Pt. unfold deletex. pose proof (seg_short _ _ _ _ _ S Pt). 
  eapply deletex_loop_nil; eauto; try lia. { eapply seg_nodup; eauto. }
  intros. eapply deletex_loop_kept; eauto.
Qed.

(** ** delete-duplicates! *)
Fixpoint nodups (fuel : nat) (xs : list val) : list val :=
  match fuel, xs with S f, x :: r => x :: nodups f (filter (other x) r) | _, _ => [] end.
Lemma filter_len : forall (f : val -> bool) l, length (filter f l) <= length l.
Proof. induction l as [|x l IH]; cbn; auto. destruct (f x); cbn; lia. Qed.
Lemma dupx_loop_ok : forall fuel h lp R rs t, seg h lp R rs t -> pairp t = false -> length R < fuel ->
  exists h' K, delete_dupx_loop eqm fuel h lp = Ok h' /\ seg h' lp K (nodups (length rs) rs) t /\ incl K R /\ changed_only R h h' /\ length h' = length h.
Proof.
  induction fuel as [|fuel IH]; intros h lp R rs t S Pt L; [lia|]. cbn [delete_dupx_loop].
  destruct (pairp lp) eqn:Pc; cbn [negb].
  - destruct (seg_inv_pair _ _ _ _ _ S Pc Pt) as (a & x & d & B & ys & -> & -> & -> & En & S1).
    pose proof (seg_nodup _ _ _ _ _ S Pt) as N. inversion N as [|? ? Na Nb]; subst.
    rewrite (car_at _ _ _ _ En), (cdr_at _ _ _ _ En). cbn [bind length nodups] in *.
    destruct (deletex_ok h x d B ys t S1 Pt) as (h1 & tl & K & E & S2 & I2 & N2 & Cg & Le). rewrite E. cbn [bind].
    assert (La : a < length h) by (apply nth_error_Some; congruence).
    assert (En1 : nth_error h1 a = Some (x, d)) by (rewrite Cg; auto).
    rewrite (cdr_at _ _ _ _ En1). cbn [bind].
    assert (Step : exists h2, (if val_eqb d tl then Ok h1 else set_cdr h1 (Ptr a) tl) = Ok h2 /\ nth_error h2 a = Some (x, tl) /\ seg h2 tl K (filter (other x) ys) t /\
      changed_only [a] h1 h2 /\ length h2 = length h1).
    { destruct (val_eqb d tl) eqn:Ev.
      - apply val_eqb_eq in Ev. subst tl. exists h1. split; auto. split; auto. split; auto. split; auto. apply changed_refl.
      - rewrite (set_cdr_at _ _ _ _ _ En1). eexists; split; [reflexivity|]. split; [apply store_same; lia|]. split; [|split; [apply changed_store; left; auto|apply store_len]].
        apply seg_store; auto. }
    destruct Step as (h2 & E2 & En2 & S3 & Cg2 & Le2). rewrite E2. cbn [bind]. rewrite (cdr_at _ _ _ _ En2). cbn [bind].
    pose proof (seg_len _ _ _ _ _ S3) as Lk. pose proof (filter_len (other x) ys). pose proof (seg_len _ _ _ _ _ S1).
    destruct (IH h2 tl K (filter (other x) ys) t) as (h3 & K3 & E3 & S4 & I4 & Cg3 & Le3); auto; try lia.
    exists h3, (a :: K3). split; auto. split; [|split; [|split; [|lia]]].
    + econstructor; [rewrite Cg3; [exact En2|lia|intro; apply Na, I2; auto]|].
      assert (G : forall n zs, length zs <= n -> nodups n zs = nodups (length zs) zs).
      { clear. intro n. induction n as [n IHn] using lt_wf_ind. intros [|z zs] L; destruct n as [|n]; cbn [length nodups] in *; try lia; auto. f_equal.
        pose proof (filter_len (other z) zs). rewrite (IHn n) by lia. destruct (Nat.eq_dec n (length zs)) as [->|]; [rewrite (IHn (length zs)) by lia; auto|].
        rewrite (IHn (length zs)) by lia. auto. }
      rewrite G by lia. exact S4.
    + intros b [->|Hb]; [left; auto|right; auto].
    + eapply changed_trans; [rewrite Le; reflexivity|eapply changed_incl; [|exact Cg]; intros b Hb; right; auto|].
      eapply changed_trans; [rewrite Le2; reflexivity|eapply changed_incl; [|exact Cg2]; intros b [->|[]]; left; auto|].
      eapply changed_incl; [|exact Cg3]. intros b Hb; right; auto.
  - destruct (seg_inv_nonpair _ _ _ _ _ S Pc) as (-> & -> & ->). exists h, []. split; auto. split; [constructor|]. split; [intros b []|]. split; auto. apply changed_refl.
Qed.
Lemma delete_duplicatesx_ok : forall h l A xs t, seg h l A xs t -> pairp t = false ->
  exists h' K, delete_duplicatesx eqm h l = Ok (h', l) /\ seg h' l K (nodups (length xs) xs) t /\ incl K A /\ changed_only A h h' /\ length h' = length h.
Proof.
  intros h l A xs t S Pt. unfold delete_duplicatesx. pose proof (seg_short _ _ _ _ _ S Pt).
  destruct (dupx_loop_ok (Datatypes.S (length h)) h l A xs t S Pt ltac:(lia)) as (h' & K & E & X). rewrite E. cbn [bind]. eauto.
Qed.
End Eq.

(** ** filter! *)
Section Filter.
Variable pred : val -> bool.
Lemma filterx_loop_ok : forall fuel h ans skip K ks p y d0 cp R rs t, length R < fuel -> pairp t = false ->
    seg h ans (K ++ [p]) (ks ++ [y]) d0 -> (skip = false -> d0 = cp) -> seg h cp R rs t -> NoDup (K ++ [p] ++ R) ->
    exists h2 K2, filterx_loop pred fuel h skip (Ptr p) cp = Ok h2 /\ seg h2 ans K2 (ks ++ [y] ++ filter pred rs) t /\
      incl K2 (K ++ [p] ++ R) /\ changed_only (K ++ [p] ++ R) h h2 /\ length h2 = length h.
Proof.
  induction fuel as [|fuel IH]; intros h ans skip K ks p y d0 cp R rs t L Pt Sk Hd S N; [lia|]. cbn [filterx_loop].
  destruct (seg_snoc_inv _ _ _ _ _ _ _ Sk) as (_ & Sk' & Ep & _).
  assert (NpK : ~ In p K /\ ~ In p R).
  { cbn [app] in N. apply NoDup_remove_2 in N. rewrite in_app_iff in N. tauto. }
  destruct NpK as (NpK & NpR).
  assert (Rel : forall w, exists h1, (if skip then set_cdr h (Ptr p) w else Ok h) = Ok h1 /\ (skip = true -> h1 = store p (y, w) h) /\ (skip = false -> h1 = h)).
  { intro w. rewrite (set_cdr_at _ _ _ _ _ Ep). destruct skip; eexists; (split; [reflexivity|]); split; auto; discriminate. }
  assert (Cl : forall h1, (skip = true -> h1 = store p (y, cp) h) -> (skip = false -> h1 = h) ->
    seg h1 ans (K ++ [p]) (ks ++ [y]) cp /\ seg h1 cp R rs t /\ changed_only (K ++ [p] ++ R) h h1 /\ length h1 = length h).
  { intros h1 X1 X2. destruct skip.
    - rewrite X1 by auto. split; [eapply seg_set_last; eauto|]. split; [apply seg_store; auto|]. split; [apply changed_store, in_app_iff; right; left; auto|apply store_len].
    - rewrite X2, <- Hd by auto. split; auto. rewrite Hd by auto. split; auto. split; auto. apply changed_refl. }
  destruct (pairp cp) eqn:Pc; cbn [negb].
  - destruct (seg_inv_pair _ _ _ _ _ S Pc Pt) as (a & x & d & B & ys & -> & -> & -> & En & S1).
    rewrite (car_at _ _ _ _ En). cbn [bind filter]. cbn [length] in L.
    destruct (pred x) eqn:Ex.
    + destruct (Rel (Ptr a)) as (h1 & E1 & X1 & X2). rewrite E1. cbn [bind]. destruct (Cl h1 X1 X2) as (Sa & Sb & Cg & Le).
      inversion Sb as [|? ? d' ? ? ? En' Sd' ]; subst.
      rewrite (cdr_at _ _ _ _ En'). cbn [bind].
      destruct (IH h1 ans false (K ++ [p]) (ks ++ [y]) a x d' d' B ys t) as (h2 & K2 & E & S2 & I2 & Cg2 & Le2); auto; try lia.
      * eapply seg_app; [exact Sa|]. econstructor; [exact En'|constructor].
      * rewrite <- app_assoc. exact N.
      * exists h2, K2. rewrite <- !app_assoc in *. cbn [app] in *. split; auto. split; auto. split; auto. split; [|lia]. eapply changed_trans; [rewrite Le; reflexivity|exact Cg|exact Cg2].
    + rewrite (cdr_at _ _ _ _ En). cbn [bind].
      assert (Inc : incl (K ++ [p] ++ B) (K ++ [p] ++ a :: B)).
      { intros b Hb. rewrite !in_app_iff in *. cbn in *. tauto. }
      destruct (IH h ans true K ks p y d0 d B ys t) as (h2 & K2 & E & S2 & I2 & Cg2 & Le2); auto; try lia; try discriminate.
      * cbn [app] in *. change (K ++ p :: a :: B) with (K ++ [p] ++ a :: B) in N. rewrite app_assoc in N. apply NoDup_remove_1 in N. rewrite <- app_assoc in N. exact N.
      * exists h2, K2. split; auto. split; auto. split; [intros b Hb; apply Inc, I2, Hb|]. split; auto. eapply changed_incl; eauto.
  - destruct (seg_inv_nonpair _ _ _ _ _ S Pc) as (-> & -> & ->). destruct (Rel t) as (h1 & E1 & X1 & X2). rewrite E1.
    destruct (Cl h1 X1 X2) as (Sa & Sb & Cg & Le). exists h1, (K ++ [p]). cbn [filter]. rewrite !app_nil_r in *. split; auto. split; auto. split; [intros b Hb; auto|]. auto.
Qed.
Lemma filterx_restart_ok : forall fuel h l A xs, seg h l A xs Nil -> length A < fuel ->
  exists h' r K, filterx_restart pred fuel h l = Ok (h', r) /\ seg h' r K (filter pred xs) Nil /\ incl K A /\ changed_only A h h' /\ length h' = length h.
Proof.
  induction fuel as [|fuel IH]; intros h l A xs S L; [lia|]. cbn [filterx_restart].
  destruct (pairp l) eqn:Pc; cbn [negb].
  - destruct (seg_inv_pair _ _ _ _ _ S Pc eq_refl) as (a & x & d & B & ys & -> & -> & -> & En & S1). cbn [nullp length] in *.
    rewrite (car_at _ _ _ _ En), (cdr_at _ _ _ _ En). cbn [bind filter].
    pose proof (seg_short _ _ _ _ _ S1 eq_refl) as Ls.
    destruct (pred x) eqn:Ex.
    + destruct (filterx_loop_ok (Datatypes.S (length h)) h (Ptr a) false [] [] a x d d B ys Nil) as (h2 & K2 & E & S2 & I2 & Cg2 & Le2); auto; try lia.
      * cbn. econstructor; [exact En|constructor].
      * apply (seg_nodup _ _ _ _ _ S eq_refl).
      * rewrite E. cbn [bind app] in *. exists h2, (Ptr a), K2. auto 8.
    + destruct (IH h d B ys S1 ltac:(lia)) as (h2 & r & K2 & E & S2 & I2 & Cg2 & Le2). exists h2, r, K2. split; auto. split; auto.
      split; [intros b Hb; right; auto|]. split; auto. eapply changed_incl; [|exact Cg2]. intros b Hb; right; auto.
  - destruct (seg_inv_nonpair _ _ _ _ _ S Pc) as (-> & -> & ->). cbn. exists h, Nil, []. split; auto. split; [constructor|]. split; [intros b []|]. split; auto. apply changed_refl.
Qed.
Lemma filterx_ok : forall h l A xs, seg h l A xs Nil ->
  exists h' r K, filterx pred h l = Ok (h', r) /\ seg h' r K (filter pred xs) Nil /\ incl K A /\ changed_only A h h' /\ length h' = length h.
Proof. intros h l A xs S. unfold filterx. pose proof (seg_short _ _ _ _ _ S eq_refl). apply filterx_restart_ok; auto. lia. Qed.
End Filter.

Lemma nodup_app_l : forall {T} (a b : list T), NoDup (a ++ b) -> NoDup a.
Proof. induction a as [|x a IH]; intros b N; [constructor|]. inversion N; subst. constructor; eauto. intro. apply H1, in_app_iff. auto. Qed.

(** ** list-tail and friends over segments *)
Lemma list_tail_loop_seg : forall h v A xs w, seg h v A xs w -> list_tail_loop (length A) h v = Ok (Some w).
Proof. induction 1; cbn [list_tail_loop length]; auto. cbn [pairp negb]. rewrite (cdr_at _ _ _ _ H). exact IHseg. Qed.
Lemma list_tail_loop_past : forall h v A xs w, seg h v A xs w -> pairp w = false -> forall n, length A < n -> list_tail_loop n h v = Ok None.
Proof.
  induction 1; intros Pw n L; (destruct n as [|n]; [cbn in L; lia|]); cbn [list_tail_loop length] in *.
  - rewrite Pw. reflexivity.
  - cbn [pairp negb]. rewrite (cdr_at _ _ _ _ H). cbn [bind]. apply IHseg; auto. lia.
Qed.
Lemma seg_take : forall h v A xs w k, seg h v A xs w -> k <= length A ->
  exists u, seg h v (firstn k A) (firstn k xs) u /\ seg h u (skipn k A) (skipn k xs) w.
Proof.
  intros h v A xs w k S. revert k. induction S; intros [|k] L; cbn [firstn skipn length] in *; try lia.
  - exists v. split; constructor.
  - exists (Ptr a). split; [constructor|econstructor; eauto].
  - destruct (IHS k) as (u & S1 & S2); [lia|]. exists u. split; auto. econstructor; eauto.
Qed.
Lemma list_tail_seg : forall h v A xs w, seg h v A xs w -> forall fb, list_tail h v (Z.of_nat (length A)) fb = Ok w.
Proof.
  intros. unfold list_tail. destruct (Z.ltb_spec (Z.of_nat (length A)) 0); [lia|]. rewrite Nat2Z.id, (list_tail_loop_seg _ _ _ _ _ H). reflexivity.
Qed.
Lemma lockstep_ok : forall h p0 A xs t, seg h p0 A xs t -> pairp t = false -> forall p1 B ys w fuel, seg h p1 B ys w -> length B = length A -> length A < fuel ->
  lockstep fuel h p0 p1 = Ok w.
Proof.
  induction 1; intros Pt p1 B ys u fuel Sb Lb Lf; (destruct fuel as [|fuel]; [lia|]); cbn [lockstep length] in *.
  - rewrite Pt. destruct B; [|discriminate]. inversion Sb; subst. reflexivity.
  - cbn [pairp]. rewrite (cdr_at _ _ _ _ H). cbn [bind]. destruct B as [|b B]; [discriminate|]. inversion Sb as [|? ? e ? ? ? Eb Se]; subst.
    rewrite (cdr_at _ _ _ _ Eb). cbn [bind]. cbn [length] in Lb. eapply IHseg; eauto; lia.
Qed.
Lemma take_right_ok : forall h l A xs t B ys p, seg h l A xs p -> seg h p B ys t -> pairp t = false -> take_right h l (Z.of_nat (length B)) = Ok p.
Proof.
  intros h l A xs t B ys p Sa Sb Pt. unfold take_right.
  pose proof (seg_app _ _ _ _ _ _ _ _ Sa Sb) as S. 
  destruct (seg_take _ _ _ _ _ (length B) S) as (u & S1 & S2); [rewrite app_length; lia|].
  assert (L1 : length (firstn (length B) (A ++ B)) = length B) by (rewrite firstn_length, app_length; lia).
  rewrite <- L1, (list_tail_seg _ _ _ _ _ S1). cbn [bind].
  assert (L2 : length (skipn (length B) (A ++ B)) = length A) by (rewrite skipn_length, app_length; lia).
  pose proof (seg_short _ _ _ _ _ S2 Pt) as L3.
  eapply lockstep_ok; eauto; lia.
Qed.
Lemma seg_last_split : forall h v A xs w, seg h v A xs w -> A <> [] -> exists B b ys y, A = B ++ [b] /\ xs = ys ++ [y].
Proof.
  intros h v A xs w S Ne. pose proof (seg_len _ _ _ _ _ S) as L. destruct (exists_last Ne) as (B & b & ->).
  destruct (@exists_last _ xs) as (ys & y & ->). { intros ->. rewrite app_length in L. cbn in L. lia. }
  eauto 6.
Qed.
(** cutting after the last pair of a prefix *)
Lemma cut_ok : forall h l A xs w w', seg h l A xs w -> NoDup A -> A <> [] -> forall p, list_tail_loop (length A - 1) h l = Ok (Some p) ->
  exists h', set_cdr h p w' = Ok h' /\ pairp p = true /\ seg h' l A xs w' /\ changed_only A h h' /\ length h' = length h.
Proof.
  intros h l A xs w w' S N Ne p Hp. destruct (seg_last_split _ _ _ _ _ S Ne) as (B & b & ys & y & -> & ->).
  destruct (seg_snoc_inv _ _ _ _ _ _ _ S) as (_ & S1 & Eb & _).
  rewrite app_length in Hp. cbn [length] in Hp. replace (length B + 1 - 1) with (length B) in Hp by lia. rewrite (list_tail_loop_seg _ _ _ _ _ S1) in Hp. injection Hp as <-.
  exists (store b (y, w') h). rewrite (set_cdr_at _ _ _ _ _ Eb). split; auto. split; auto. split; [eapply seg_set_last; eauto; now apply nodup_snoc|].
  split; [apply changed_store, in_app_iff; right; left; auto|apply store_len].
Qed.
Lemma drop_rightx_ok : forall h l A xs t B ys p, seg h l A xs p -> seg h p B ys t -> pairp t = false ->
  exists h' r, drop_rightx h l (Z.of_nat (length B)) = Ok (h', r) /\ seg h' r A xs Nil /\ changed_only A h h' /\ length h' = length h.
Proof.
  intros h l A xs t B ys p Sa Sb Pt. unfold drop_rightx.
  pose proof (seg_app _ _ _ _ _ _ _ _ Sa Sb) as S. pose proof (seg_nodup _ _ _ _ _ S Pt) as N.
  destruct (seg_take _ _ _ _ _ (length B) S) as (u & S1 & S2); [rewrite app_length; lia|].
  assert (L1 : length (firstn (length B) (A ++ B)) = length B) by (rewrite firstn_length, app_length; lia).
  rewrite <- L1, (list_tail_seg _ _ _ _ _ S1). cbn [bind].
  assert (L2 : length (skipn (length B) (A ++ B)) = length A) by (rewrite skipn_length, app_length; lia).
  pose proof (seg_short _ _ _ _ _ S2 Pt) as L3.
  destruct (pairp u) eqn:Pu.
  - destruct (seg_inv_pair _ _ _ _ _ S2 Pu Pt) as (a & x & d & D & zs & -> & EA & Ex & En & S3). rewrite EA in *. cbn [length] in L2.
    rewrite (cdr_at _ _ _ _ En). cbn [bind].
    assert (Ne : A <> []) by (intros ->; cbn in L2; lia).
    destruct (seg_last_split _ _ _ _ _ Sa Ne) as (B' & b & ys' & y & -> & ->).
    destruct (seg_snoc_inv _ _ _ _ _ _ _ Sa) as (_ & S4 & Eb & _).
    rewrite app_length in L2. cbn in L2.
    rewrite (lockstep_ok _ _ _ _ _ S3 Pt _ _ _ _ (Datatypes.S (length h)) S4) by (cbn [length] in *; lia). cbn [bind].
    rewrite (set_cdr_at _ _ _ _ _ Eb). cbn [bind]. eexists _, _. split; [reflexivity|].
    split; [eapply seg_set_last; eauto; apply nodup_snoc; eapply nodup_app_l; eauto|].
    split; [apply changed_store, in_app_iff; right; left; auto|apply store_len].
  - destruct (seg_inv_nonpair _ _ _ _ _ S2 Pu) as (-> & EA & Ex). rewrite EA in L2. destruct A; [|discriminate L2]. inversion Sa; subst.
    exists h, Nil. split; auto. split; [constructor|]. split; auto. apply changed_refl.
Qed.
Lemma split_atx_loop_ok : forall h rest R rs w, seg h rest R rs w -> forall lis P ps prev, 
  (match prev with None => P = [] /\ ps = [] /\ lis = rest | Some v => exists Q q qs y, v = Ptr q /\ P = Q ++ [q] /\ ps = qs ++ [y] end) ->
  seg h lis P ps rest -> NoDup (P ++ R) ->
  exists h' r, split_atx_loop (length R) h lis rest prev = Ok (h', r, w) /\ seg h' r (P ++ R) (ps ++ rs) Nil /\ changed_only (P ++ R) h h' /\ length h' = length h.
Proof.
  induction 1; intros lis P ps prev Hp Sp N; cbn [split_atx_loop length].
  - rewrite !app_nil_r in *. destruct prev as [v0|].
    + destruct Hp as (Q & q & qs & y & -> & -> & ->). destruct (seg_snoc_inv _ _ _ _ _ _ _ Sp) as (_ & _ & Eq & _).
      rewrite (set_cdr_at _ _ _ _ _ Eq). cbn [bind]. eexists _, _. split; [reflexivity|]. split; [eapply seg_set_last; eauto; now apply nodup_snoc|].
      split; [apply changed_store, in_app_iff; right; left; auto|apply store_len].
    + destruct Hp as (-> & -> & ->). exists h, Nil. split; auto. split; [constructor|]. split; auto. apply changed_refl.
  - cbn [pairp negb]. rewrite (cdr_at _ _ _ _ H). cbn [bind].
    destruct (IHseg lis (P ++ [a]) (ps ++ [x]) (Some (Ptr a))) as (h' & r & E & X).
    + eauto 8.
    + eapply seg_app; [exact Sp|]. econstructor; [exact H|constructor].
    + rewrite <- app_assoc. exact N.
    + rewrite <- !app_assoc in X. cbn [app] in X. eauto.
Qed.
Lemma split_atx_ok : forall h l A xs w, seg h l A xs w -> NoDup A ->
  exists h' r, split_atx h l (Z.of_nat (length A)) = Ok (h', r, w) /\ seg h' r A xs Nil /\ changed_only A h h' /\ length h' = length h.
Proof.
  intros h l A xs w S N. unfold split_atx. destruct (Z.ltb_spec (Z.of_nat (length A)) 0); [lia|]. rewrite Nat2Z.id.
  apply (split_atx_loop_ok h l A xs w S l [] [] None); auto. constructor.
Qed.
Lemma takex_ok : forall h l A xs w, seg h l A xs w -> NoDup A ->
  exists h' r, takex h l (Z.of_nat (length A)) = Ok (h', r) /\ seg h' r A xs Nil /\ changed_only A h h' /\ length h' = length h.
Proof.
  intros h l A xs w S N. unfold takex. destruct (Z.eqb_spec (Z.of_nat (length A)) 0) as [E0|Ne].
  - destruct A; [|cbn in E0; lia]. inversion S; subst. exists h, Nil. split; auto. split; [constructor|]. split; auto. apply changed_refl.
  - assert (NeA : A <> []) by (intros ->; apply Ne; reflexivity).
    destruct (seg_take _ _ _ _ _ (length A - 1) S) as (u & S1 & S2); [lia|].
    assert (L1 : length (firstn (length A - 1) A) = length A - 1) by (rewrite firstn_length; lia).
    pose proof (list_tail_loop_seg _ _ _ _ _ S1) as T. rewrite L1 in T.
    destruct (cut_ok h l A xs w Nil S N NeA u T) as (h' & E & Pu & X).
    replace (Z.of_nat (length A) - 1)%Z with (Z.of_nat (length (firstn (length A - 1) A))) by lia. rewrite (list_tail_seg _ _ _ _ _ S1). cbn [bind]. rewrite Pu, E. cbn [bind]. eauto.
Qed.
Lemma list_set_ok : forall h l A xs x w v y d a, seg h l A xs (Ptr a) -> nth_error h a = Some (x, d) -> w = Ptr a -> y = v -> pairp l = true ->
  list_set h l (Z.of_nat (length A)) v = Ok (store a (v, d) h).
Proof.
  intros h l A xs x w v y d a S En -> -> Pl. unfold list_set. rewrite Pl. cbn [negb]. rewrite (list_tail_seg _ _ _ _ _ S). cbn [bind pairp]. unfold set_car. rewrite En. reflexivity.
Qed.
