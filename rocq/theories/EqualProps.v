(** C21: equal? and the equal-hashes. *)
From Coq Require Import List ZArith Bool Lia QArith SpecFloat PeanoNat.
From Verif Require Import EqualModel EqualSpec EqualProofs EqualUf EqualInter EqualHash.
Import ListNotations.
Local Open Scope Z_scope.
(** equal? returns b: however long we let it run beyond some point *)
Definition equal_is (h : heap) (orc : nat -> Z) (x y : obj) (b : bool) : Prop :=
  exists N, forall fuel, (N <= fuel)%nat -> equal_p h orc fuel x y = Some b.
Lemma equal_total h orc rank fuel x y : idents_ok h -> (forall a b, child h a b -> (rank b < rank a)%nat) -> (rk rank x < fuel)%nat ->
  (equal_p h orc fuel x y = Some true /\ same_datum h x y) \/ (equal_p h orc fuel x y = Some false /\ ~ same_datum h x y).
Proof.
  intros IO RK L. unfold equal_p, c_equal. destruct (obj_eqb x y) eqn:E; [apply obj_eqb_eq in E; subst; left; split; [reflexivity|apply same_refl]|].
  destruct (spine_acyclic h IO rank RK fuel x y x y 0 0 false false (af_0 h x) (af_0 h y) L) as (a & EA & M & RA). rewrite EA.
  destruct a as [| |x' y']; cbn [means] in M; [left; auto|right; auto|].
  destruct (interleave_total h orc rank RK fuel x' y') as (b & EB); [lia|]. rewrite EB. destruct b.
  - left. split; [reflexivity|]. apply M. eapply interleave_sound; eassumption.
  - right. split; [reflexivity|]. intros SD. apply M in SD. eapply interleave_complete; eassumption.
Qed.
(** On acyclic data equal? always returns, and its answer is whether the two are the same datum up to sharing -
    whatever numbers sys-random yields. *)
Theorem equal_decides h orc x y : idents_ok h -> acyclic h -> exists b, equal_is h orc x y b /\ (b = true <-> same_datum h x y).
Proof.
  intros IO (rank & RK). destruct (equal_total h orc rank (S (rk rank x)) x y IO RK (Nat.lt_succ_diag_r _)) as [[_ SD]|[_ SD]].
  - exists true. split; [|tauto]. exists (S (rk rank x)). intros fuel L. destruct (equal_total h orc rank fuel x y IO RK L) as [[E _]|[_ SD']]; [assumption|contradiction].
  - exists false. split; [|split; [discriminate|contradiction]]. exists (S (rk rank x)). intros fuel L. destruct (equal_total h orc rank fuel x y IO RK L) as [[_ SD']|[E _]]; [contradiction|assumption].
Qed.
Lemma equal_is_fun h orc x y b b' : equal_is h orc x y b -> equal_is h orc x y b' -> b = b'.
Proof. intros [N H] [N' H']. specialize (H (N + N')%nat ltac:(lia)). specialize (H' (N + N')%nat ltac:(lia)). congruence. Qed.
Lemma equal_is_true h orc x y : idents_ok h -> acyclic h -> equal_is h orc x y true <-> same_datum h x y.
Proof.
  intros IO A. destruct (equal_decides h orc x y IO A) as (b & E & SD0). split.
  - intros E'. apply SD0. eapply equal_is_fun; eassumption.
  - intros SD. apply SD0 in SD. now subst.
Qed.
(** equal? is an equivalence relation on acyclic data. *)
Theorem equal_equivalence h orc : idents_ok h -> acyclic h ->
  (forall x, equal_is h orc x x true) /\
  (forall x y, equal_is h orc x y true -> equal_is h orc y x true) /\
  (forall x y z, equal_is h orc x y true -> equal_is h orc y z true -> equal_is h orc x z true).
Proof.
  intros IO A. repeat split; intros *; rewrite ?equal_is_true by assumption.
  - apply same_refl.
  - now apply same_sym.
  - now apply same_trans.
Qed.
(** %interleave-equal? is right about every graph, cyclic or not, when it returns. *)
Theorem interleave_correct h orc fuel x y b : idents_ok h -> interleave_equal h orc fuel x y = Some b -> (b = true <-> same_datum h x y).
Proof.
  intros IO E. destruct b; split; try discriminate; auto.
  - intros _. eapply interleave_sound; eassumption.
  - intros SD. exfalso. eapply interleave_complete; eassumption.
Qed.
(** On cyclic data equal? never returns #f wrongly ... *)
Theorem equal_false_correct h orc fuel x y : idents_ok h -> equal_p h orc fuel x y = Some false -> ~ same_datum h x y.
Proof.
  intros IO E SD. unfold equal_p, c_equal in E. destruct (obj_eqb x y); [discriminate|].
  destruct (c_spine h fuel x y x y false false) as [a|] eqn:EA; [|discriminate].
  destruct (spine_no h IO _ _ _ _ _ _ _ _ EA) as [->|M]; [discriminate|]. destruct a as [| |x' y']; cbn [means] in M; [discriminate|contradiction|].
  apply M in SD. eapply interleave_complete; eassumption.
Qed.
(** ... but it can return #t wrongly: (p p . #0=(b a a . #0#)) and (p p b . #1=(a a b a . #1#)) differ in the ninth
    element, and are equal? (the tortoise-and-hare test of the list loop gives up too early). *)
Definition circ_heap : heap := fun n =>
  match n with
  | 0 => NPair (OFix 0) (ORef 1) | 1 => NPair (OFix 0) (ORef 2) | 2 => NPair (OFix 1) (ORef 3) | 3 => NPair (OFix 2) (ORef 4) | 4 => NPair (OFix 2) (ORef 2)
  | 10 => NPair (OFix 0) (ORef 11) | 11 => NPair (OFix 0) (ORef 12) | 12 => NPair (OFix 1) (ORef 13)
  | 13 => NPair (OFix 2) (ORef 14) | 14 => NPair (OFix 2) (ORef 15) | 15 => NPair (OFix 1) (ORef 16) | 16 => NPair (OFix 2) (ORef 13)
  | _ => NOther
  end%nat.
Theorem equal_circular_refuted : (forall orc, equal_p circ_heap orc 10 (ORef 0) (ORef 10) = Some true) /\ ~ same_datum circ_heap (ORef 0) (ORef 10).
Proof.
  split; [intros; vm_compute; reflexivity|]. intros SD.
  assert (IO : idents_ok circ_heap).
  { intros a s E. unfold circ_heap in E. do 17 (destruct a as [|a]; [discriminate|]). discriminate. }
  assert (DN : forall x y p q p' q', same_datum circ_heap x y -> pair_of circ_heap x = Some (p, q) -> pair_of circ_heap y = Some (p', q') -> same_datum circ_heap p p' /\ same_datum circ_heap q q').
  { intros x y p q p' q' SD' X Y. now apply (same_pair circ_heap IO x y p q p' q' X Y) in SD'. }
  do 8 (destruct (DN _ _ _ _ _ _ SD eq_refl eq_refl) as [_ SD1]; clear SD; rename SD1 into SD).
  destruct (DN _ _ _ _ _ _ SD eq_refl eq_refl) as [SD1 _]; clear SD; rename SD1 into SD.
  apply same_leaf in SD; [|reflexivity]. inversion SD as [|? ? a b E1 E2 N| | | | | | ]; subst. cbn in E1, E2. injection E1 as <-. injection E2 as <-.
  inversion N as [? ? p q F1 F2 Q| |]; subst. cbn in F1, F2. injection F1 as <-. injection F2 as <-. discriminate Q.
Qed.
Definition hstep (h : heap) (env : henv) (portable : bool) (salt : Z) (H : option Z -> obj -> option Z) (acc : option Z) (x : obj) : option Z :=
    match acc with
    | Some a =>
      match pair_of h x with
      | Some (p, q) => match H None p with
                       | Some v => H (Some (combine_hash a v)) q
                       | None => None
                       end
      | None => match H None x with
                | Some v => Some (combine_hash a v)
                | None => None
                end
      end
    | None =>
      match num_of h x with
      | Some n => Some (number_hash n portable)
      | None =>
        match x with
        | OImm w => Some (Z.land (small_int_hash w) portable_mask)
        | OFix z => Some (number_hash (NInt z) portable)
        | ORef a =>
          match h a with
          | NStr s _ => Some (sip env portable s)
          | NPair _ _ => H (Some 0) x
          | NVec l => vhash (H None) l 0
          | NUInt ty l => Some (sip_uv env portable ty l)
          | NUFlo ty l =>                                (* src/hash.c:313-323: f64vector, portable *)
            Some (fold_left (fun r e => combine_hash r (flonum_hash e true)) l (small_int_hash (Z.lxor f64_seed salt)))
          | NSym s => Some (if portable then sip env true s else addr_hash env a)
          | NIdent _ => Some (ident_hash env a)
          | NOther => Some (other_hash env a)
          | NNum n => Some (number_hash n portable)
          end
        end
      end
    end.
Lemma hash_unfold h env portable salt f acc x : hash_rec h env portable salt (S f) acc x = hstep h env portable salt (hash_rec h env portable salt f) acc x.
Proof. reflexivity. Qed.
Lemma vhash_mono (H H' : obj -> option Z) : (forall z v, H z = Some v -> H' z = Some v) -> forall l acc v, vhash H l acc = Some v -> vhash H' l acc = Some v.
Proof.
  intros M. induction l as [|t l IHl]; intros acc v; cbn [vhash]; [auto|]. destruct (H t) as [u|] eqn:E1; [|discriminate]. rewrite (M _ _ E1). apply IHl.
Qed.
Lemma hstep_mono h env portable salt H H' : (forall acc z v, H acc z = Some v -> H' acc z = Some v) ->
  forall acc z v, hstep h env portable salt H acc z = Some v -> hstep h env portable salt H' acc z = Some v.
Proof.
  intros M acc z v. unfold hstep. destruct acc as [a|].
  - destruct (pair_of h z) as [[p q]|].
    + destruct (H None p) as [u|] eqn:E1; [|discriminate]. rewrite (M _ _ _ E1). apply M.
    + destruct (H None z) as [u|] eqn:E1; [|discriminate]. rewrite (M _ _ _ E1). auto.
  - destruct (num_of h z); [auto|]. destruct z as [w|w|a]; auto. destruct (h a); auto. apply vhash_mono. apply M.
Qed.
Lemma hash_more h env portable salt : forall fuel acc z v, hash_rec h env portable salt fuel acc z = Some v -> hash_rec h env portable salt (S fuel) acc z = Some v.
Proof.
  induction fuel as [|f IH]; intros acc z v; [discriminate|]. rewrite (hash_unfold _ _ _ _ (S f)), (hash_unfold _ _ _ _ f). apply hstep_mono. exact IH.
Qed.
(** Equal data have equal hash values (default-hash and portable-hash, any salt, any siphash and addresses), and both
    are computed in finitely many steps. *)
Theorem equal_hash_agree h orc env portable salt x y : hash_ok h -> acyclic h -> equal_is h orc x y true ->
  exists v N, forall fuel, (N <= fuel)%nat -> equal_hash h env portable salt fuel x = Some v /\ equal_hash h env portable salt fuel y = Some v.
Proof.
  intros HO A E. pose proof (hash_idents h HO) as IO. apply equal_is_true in E; [|assumption|assumption]. destruct A as (rank & RK).
  set (N := (3 * rk rank x + 3)%nat).
  assert (T : forall fuel, (N <= fuel)%nat -> exists v, hash_rec h env portable salt fuel None x = Some v).
  { intros fuel L. eapply hash_total; [exact RK|]. destruct (pair_of h x); lia. }
  assert (F1 : forall fuel acc z v, hash_rec h env portable salt fuel acc z = Some v -> hash_rec h env portable salt (S fuel) acc z = Some v).
  { intros. eapply hash_more; eassumption. }
  destruct (T N (le_n _)) as (v & Ev). exists (Z.land v (mask portable)), N. intros fuel L.
  assert (Ef : hash_rec h env portable salt fuel None x = Some v) by (induction L; auto).
  unfold equal_hash. rewrite <- (hash_same h HO env portable salt fuel None x y E), Ef. auto.
Qed.
(** The exceptions. A complex number with a zero part: 0.0+1.0i and -0.0+1.0i are equal?, their hashes differ. *)
Definition one : spec_float := S754_finite false 4503599627370496 (-52).
Definition comp_heap : heap := fun n => match n with O => NNum (NComp (S754_zero false) one) | 1%nat => NNum (NComp (S754_zero true) one) | _ => NOther end.
Theorem compnum_hash_refuted : (forall orc, equal_p comp_heap orc 5 (ORef 0) (ORef 1) = Some true) /\
  forall env salt portable, equal_hash comp_heap env portable salt 5 (ORef 0) <> equal_hash comp_heap env portable salt 5 (ORef 1).
Proof. split; [intros; vm_compute; reflexivity|]. intros env salt []; vm_compute; discriminate. Qed.
(** f64vectors: #f64(0.0) and #f64(-0.0) *)
Definition f64_heap : heap := fun n => match n with O => NUFlo 0 [S754_zero false] | 1%nat => NUFlo 0 [S754_zero true] | _ => NOther end.
Theorem f64vector_hash_refuted : (forall orc, equal_p f64_heap orc 5 (ORef 0) (ORef 1) = Some true) /\
  forall env, equal_hash f64_heap env true 0 5 (ORef 0) <> equal_hash f64_heap env true 0 5 (ORef 1).
Proof. split; [intros; vm_compute; reflexivity|]. intros env; vm_compute; discriminate. Qed.
(** Non-vacuity: ("ab" . #(1/2 (7 . 7))), twice, with the tail shared in one only *)
Definition demo_heap : heap := fun n =>
  match n with
  | 0 => NPair (ORef 1) (ORef 2) | 1 => NStr [97; 98]%Z false | 2 => NVec [ORef 3; ORef 4; ORef 4] | 3 => NNum (NRat 1%Z 2%positive) | 4 => NPair (OFix 7%Z) (OFix 7%Z)
  | 10 => NPair (ORef 11) (ORef 12) | 11 => NStr [97; 98]%Z false | 12 => NVec [ORef 13; ORef 14; ORef 15] | 13 => NNum (NRat 1%Z 2%positive) | 14 => NPair (OFix 7%Z) (OFix 7%Z) | 15 => NPair (OFix 7%Z) (OFix 7%Z)
  | _ => NOther
  end%nat.
Example equal_demo : hash_ok demo_heap /\ acyclic demo_heap /\ forall orc, equal_p demo_heap orc 20 (ORef 0) (ORef 10) = Some true /\ equal_p demo_heap orc 20 (ORef 0) (ORef 12) = Some false.
Proof.
  split; [|split].
  - intros a. unfold demo_heap. do 16 (destruct a as [|a]; [first [exact Logic.I | split; [reflexivity|discriminate]]|]). exact Logic.I.
  - exists (fun n => match n with 0 => 3 | 2 => 2 | 4 => 1 | 10 => 3 | 12 => 2 | 14 => 1 | 15 => 1 | _ => 0 end)%nat.
    intros a b C. unfold demo_heap in C. inversion C as [? ? q E|? ? p E|? ? l E I]; subst;
      do 16 (destruct a as [|a]; [try discriminate E; injection E; intros; subst; try lia; cbn in I; repeat (destruct I as [I|I]; [try discriminate I; injection I as <-; lia|]); contradiction|]); discriminate E.
  - intros orc. split; vm_compute; reflexivity.
Qed.
(** the union-find is exercised: a list of pairs long enough to leave the first 401 comparisons *)
Definition long_heap : heap := fun n => if Nat.ltb n 500 then NPair (ORef 1000) (ORef (S n)) else if Nat.eqb n 1000 then NPair (OFix 1) (OFix 2)
  else if Nat.ltb n 3000 then (if Nat.ltb n 2000 then NOther else if Nat.ltb n 2500 then NPair (ORef 3001) (ORef (S n)) else NOther) else NPair (OFix 1) (OFix 2).
Example union_find_demo : match e_p long_heap (fun _ => 3) 600 (ORef 0) (ORef 2000) K0 uf0 with Some (_, s) => Nat.ltb 30 (length (ht s)) | None => false end = true.
Proof. vm_compute. reflexivity. Qed.

Print Assumptions equal_decides.
Print Assumptions equal_equivalence.
Print Assumptions interleave_correct.
Print Assumptions equal_false_correct.
Print Assumptions equal_circular_refuted.
Print Assumptions equal_hash_agree.
Print Assumptions compnum_hash_refuted.
Print Assumptions f64vector_hash_refuted.
