From Coq Require Import List ZArith Bool Lia QArith SpecFloat PeanoNat Znumtheory.
From Verif Require Import EqualModel EqualSpec EqualProofs.
Import ListNotations.
Local Open Scope Z_scope.
Definition num_ok (n : number) : Prop :=
  match n with
  | NRat n d => Z.gcd n (Zpos d) = 1 /\ d <> 1%positive
  | NComp r i => (forall s, r <> S754_zero s) /\ (forall s, i <> S754_zero s)
  | _ => True
  end.
Lemma sf_nonzero f g : (forall s, f <> S754_zero s) -> SFeqb f g = true -> f = g.
Proof. intros N. rewrite sf_eqb. intros [_ [E|(s & t & E & _)]]; [assumption|now apply N in E]. Qed.
Lemma same_number_ok a b : num_ok a -> num_ok b -> same_number a b -> a = b.
Proof.
  intros A B H. inversion H; subst.
  - destruct a as [z|n d|f|r i], b as [z'|n' d'|f'|r' i']; cbn in H0, H1; try discriminate; injection H0 as <-; injection H1 as <-; unfold Qeq in H2; cbn in H2.
    + f_equal. lia.
    + exfalso. destruct B as [G D]. assert (E : n' = z * Zpos d') by lia. rewrite E in G. rewrite Z.mul_comm, Z.gcd_comm, Z.gcd_mul_diag_l in G by lia. now injection G.
    + exfalso. destruct A as [G D]. assert (E : n = z' * Zpos d) by lia. rewrite E in G. rewrite Z.mul_comm, Z.gcd_comm, Z.gcd_mul_diag_l in G by lia. now injection G.
    + destruct A as [G D], B as [G' D'].
      assert (D1 : (Zpos d | Zpos d')). { apply Gauss with n; [exists n'; lia|]. apply Zgcd_1_rel_prime. now rewrite Z.gcd_comm. }
      assert (D2 : (Zpos d' | Zpos d)). { apply Gauss with n'; [exists n; lia|]. apply Zgcd_1_rel_prime. now rewrite Z.gcd_comm. }
      assert (E : Zpos d = Zpos d') by (apply Z.divide_antisym_nonneg; lia || assumption). injection E as <-. f_equal. nia.
  - reflexivity.
  - destruct A as [A1 A2]. f_equal; apply sf_nonzero; assumption.
Qed.
Section Hash.
Context (h : heap) (HO : hash_ok h) (env : henv) (portable : bool) (salt : Z).
Lemma hash_idents : idents_ok h.
Proof. intros a s E. specialize (HO a). rewrite E in HO. contradiction. Qed.
Lemma num_of_ok x n : num_of h x = Some n -> num_ok n.
Proof.
  destruct x as [|z|a]; cbn; try discriminate; [intros E; injection E as <-; exact Logic.I|]. specialize (HO a). destruct (h a); try discriminate. intros E. injection E as <-. destruct n0; exact HO.
Qed.
Notation H := (hash_rec h env portable salt).
Lemma atom_hash f x y : agg h x = false -> same_atom h x y -> H (S f) None x = H (S f) None y.
Proof.
  intros A S. inversion S as [z|u v a b Q1 Q2 Q3|a b l i Q1 Q2|a b z Q1 Q2|a z Q1|b z Q1|a b t l Q1 Q2|a b t l l' Q1 Q2 Q3]; subst.
  - reflexivity.
  - assert (a = b) by (eapply same_number_ok; eauto using num_of_ok). subst. cbn [hash_rec]. now rewrite Q1, Q2.
  - cbn [hash_rec num_of]. now rewrite Q1, Q2.
  - specialize (HO a). rewrite Q1 in HO. contradiction.
  - specialize (HO a). rewrite Q1 in HO. contradiction.
  - specialize (HO b). rewrite Q1 in HO. contradiction.
  - cbn [hash_rec num_of]. now rewrite Q1, Q2.
  - specialize (HO a). rewrite Q1 in HO. contradiction.
Qed.
Lemma vhash_same (E : obj -> option Z) xs ys acc : (forall x y, same_datum h x y -> E x = E y) -> Forall2 (same_datum h) xs ys -> vhash E xs acc = vhash E ys acc.
Proof.
  intros HE F. revert acc. induction F as [|x y xs ys S F IH]; intros acc; cbn [vhash]; [reflexivity|]. rewrite (HE _ _ S). destruct (E y); auto.
Qed.
Lemma hash_same fuel : forall acc x y, same_datum h x y -> H fuel acc x = H fuel acc y.
Proof.
  pose proof hash_idents as IO.
  induction fuel as [|f IH]; intros acc x y SD; [reflexivity|].
  destruct acc as [a|].
  - cbn [hash_rec]. destruct (pair_of h x) as [[p q]|] eqn:PX.
    + destruct (same_pair_only h IO _ _ _ _ PX SD) as (p' & q' & PY). rewrite PY. destruct (proj1 (same_pair h IO _ _ _ _ _ _ PX PY) SD) as [S1 S2].
      rewrite (IH None _ _ S1). destruct (H f None p'); [|reflexivity]. now apply IH.
    + destruct (pair_of h y) as [[p' q']|] eqn:PY.
      * apply (same_sym h) in SD. destruct (same_pair_only h IO _ _ _ _ PY SD) as (? & ? & ?). congruence.
      * now rewrite (IH None _ _ SD).
  - destruct (agg h x) eqn:A.
    + destruct (pair_of h x) as [[p q]|] eqn:PX.
      * destruct (same_pair_only h IO _ _ _ _ PX SD) as (p' & q' & PY). pose proof (IH (Some 0) x y SD) as E.
        apply pair_ref in PX as (a & -> & HA). apply pair_ref in PY as (b & -> & HB). cbn [hash_rec num_of]. rewrite HA, HB. exact E.
      * destruct (vec_of h x) as [l|] eqn:VX; [|unfold agg in A; rewrite PX, VX in A; discriminate].
        destruct (same_vec_only h IO _ _ _ VX SD) as (l' & VY & L). pose proof (proj1 (same_vec h IO _ _ _ _ VX VY) SD) as F.
        apply vec_ref in VX as (a & -> & HA). apply vec_ref in VY as (b & -> & HB). cbn [hash_rec num_of]. rewrite HA, HB. apply vhash_same; [|assumption]. intros; now apply IH.
    + apply same_leaf in SD; [|assumption]. now apply atom_hash.
Qed.
Lemma hash_total (rank : nat -> nat) (RK : forall a b, child h a b -> (rank b < rank a)%nat) fuel : forall acc x,
  (3 * rk rank x + (match acc with None => match pair_of h x with Some _ => 2 | None => 0 end | Some _ => 1 end) < fuel)%nat -> exists v, H fuel acc x = Some v.
Proof.
  induction fuel as [|f IH]; intros acc x L; [lia|].
  destruct acc as [a|]; cbn [hash_rec].
  - destruct (pair_of h x) as [[p q]|] eqn:PX.
    + pose proof (rk_cdr h rank RK _ _ _ PX) as [Lq Lp]. destruct (IH None p) as (v & ->); [destruct (pair_of h p); lia|]. apply IH. lia.
    + destruct (IH None x) as (v & ->); [rewrite PX; lia|eauto].
  - destruct (num_of h x); [eauto|]. destruct x as [w|z|a]; [eauto|eauto|]. destruct (h a) eqn:E; eauto.
    + apply IH. cbn [pair_of] in L. rewrite E in L. lia.
    + assert (VX : vec_of h (ORef a) = Some l) by (cbn; now rewrite E). cbn [pair_of] in L. rewrite E in L.
      assert (B : forall z, In z l -> exists v, H f None z = Some v) by (intros z Hz; apply IH; pose proof (rk_vec h rank RK _ _ _ VX Hz); destruct (pair_of h z); lia).
      clear - B. generalize 0. induction l as [|z l IHl]; intros acc; cbn [vhash]; [eauto|]. destruct (B z (or_introl eq_refl)) as (v & ->). apply IHl. intros; apply B; now right.
Qed.
End Hash.
