From Coq Require Import String List Bool ZArith Lia.
From Verif Require Import UriModel UriSpec.
Import ListNotations.
Local Open Scope Z_scope.
Ltac Zify.zify_post_hook ::= Z.to_euclidean_division_equations.
Lemma hexdigit_nth v : 0 <= v < 16 -> hexdigit v = nth (Z.to_nat v) upper_digits 0.
Proof.
  intros H. assert (In v (map Z.of_nat (seq 0 16))) by (apply in_map_iff; exists (Z.to_nat v); split; [lia|apply in_seq; lia]).
  cbn in H0. repeat destruct H0 as [<-|H0]; try reflexivity. destruct H0.
Qed.
Lemma hex_value_digit c v : hex_value c v -> digit16 c = Some v /\ 0 <= v < 16.
Proof.
  intros (n & Hn & -> & H). split; [|lia].
  do 16 (destruct n as [|n]; [destruct H as [-> | ->]; reflexivity|]). lia.
Qed.
Lemma digit_hex_value c v : digit16 c = Some v -> hex_value c v.
Proof.
  unfold digit16. intros H.
  assert (In c (codes "0123456789ABCDEFabcdef"%string)).
  { destruct ((48 <=? c) && (c <=? 57)) eqn:E1; [|destruct ((65 <=? c) && (c <=? 70)) eqn:E2; [|destruct ((97 <=? c) && (c <=? 102)) eqn:E3; [|discriminate]]].
    - apply andb_true_iff in E1. rewrite !Z.leb_le in E1. vm_compute. lia.
    - apply andb_true_iff in E2. rewrite !Z.leb_le in E2. vm_compute. lia.
    - apply andb_true_iff in E3. rewrite !Z.leb_le in E3. vm_compute. lia. }
  vm_compute in H0.
  exists (Z.to_nat v).
  repeat destruct H0 as [<-|H0]; try (injection H as <-; repeat split; try (vm_compute; lia); try reflexivity; vm_compute; tauto). destruct H0.
Qed.
Lemma digit_no_value c : digit16 c = None -> forall v, ~ hex_value c v.
Proof. intros H v Hv. apply hex_value_digit in Hv as [Hv _]. congruence. Qed.
Lemma triplet_inv c a b v : triplet [c; a; b] v -> c = 37 /\ exists x y, hex_value a x /\ hex_value b y /\ v = 16 * x + y.
Proof. intros H. inversion H; subst. split; [reflexivity|]. eauto 6. Qed.
Lemma len_ind (P : list Z -> Prop) : (forall l, (forall l', (List.length l' < List.length l)%nat -> P l') -> P l) -> forall l, P l.
Proof. intros H l. remember (List.length l) as n eqn:E. revert l E. induction n as [n IH] using lt_wf_ind. intros l ->. apply H. intros l' Hl. eapply IH; [exact Hl|reflexivity]. Qed.
Lemma digit16_range c v : digit16 c = Some v -> c <> 37 /\ c <> 43.
Proof.
  unfold digit16. destruct ((48 <=? c) && (c <=? 57)) eqn:E1; [|destruct ((65 <=? c) && (c <=? 70)) eqn:E2; [|destruct ((97 <=? c) && (c <=? 102)) eqn:E3; [|discriminate]]];
  rewrite andb_true_iff, !Z.leb_le in *; lia.
Qed.
Lemma decode_means cgi s : percent_means cgi s (uri_decode cgi s).
Proof.
  induction s as [s IH] using len_ind. destruct s as [|c l1]; [constructor|].
  cbn [uri_decode]. destruct (Z.eqb_spec c 37) as [->|N37].
  - destruct l1 as [|c1 l2].
    { apply pm_char; [|discriminate|constructor]. intros ? ? ? _ H; discriminate. }
    destruct (digit16 c1) as [i1|] eqn:E1.
    + destruct (digit16_range _ _ E1) as [P1 Q1]. destruct l2 as [|c2 l3].
      { apply pm_char; [intros ? ? ? _ H; discriminate|discriminate|]. apply pm_char; [congruence|auto|constructor]. }
      destruct (digit16 c2) as [i2|] eqn:E2.
      * replace (i1 * 16 + i2) with (16 * i1 + i2) by lia. apply (pm_octet cgi [37; c1; c2]).
        { constructor; now apply digit_hex_value. }
        apply IH. cbn; lia.
      * apply pm_char; [|discriminate|].
        { intros a b s' _ [= <- <- <-] [v T]. apply triplet_inv in T as (_ & x & y & _ & Hy & _). now apply (digit_no_value _ E2 y). }
        apply pm_char; [congruence|auto|]. apply IH. cbn; lia.
    + apply pm_char; [|discriminate|].
      { intros a b s' _ [= <- ->] [v T]. apply triplet_inv in T as (_ & x & y & Hx & _). now apply (digit_no_value _ E1 x). }
      apply IH. cbn; lia.
  - destruct (Z.eqb_spec c 43) as [->|N43].
    + destruct cgi.
      * apply pm_plus; [reflexivity|]. apply IH. cbn; lia.
      * apply pm_char; [congruence|discriminate|]. apply IH. cbn; lia.
    + apply pm_char; [congruence|auto|]. apply IH. cbn; lia.
Qed.
Lemma means_decode cgi s bs : percent_means cgi s bs -> uri_decode cgi s = bs.
Proof.
  induction 1 as [|t v s bs T H IH|c s bs N P H IH|s bs F H IH].
  - reflexivity.
  - destruct T as [a b x y Ha Hb]. apply hex_value_digit in Ha as [Ha _]. apply hex_value_digit in Hb as [Hb _].
    cbn [app uri_decode]. change (37 =? 37) with true. cbn match. rewrite Ha, Hb, IH. f_equal. lia.
  - cbn [uri_decode]. destruct (Z.eqb_spec c 37) as [->|N37].
    + destruct s as [|c1 l2]; [cbn in IH; now rewrite <- IH|]. destruct (digit16 c1) as [i1|] eqn:E1; [|now rewrite IH].
      destruct (digit16_range _ _ E1) as [P1 Q1].
      assert (Hone : uri_decode cgi (c1 :: l2) = c1 :: uri_decode cgi l2) by (cbn [uri_decode]; rewrite (proj2 (Z.eqb_neq c1 37)), (proj2 (Z.eqb_neq c1 43)) by assumption; reflexivity).
      rewrite Hone in IH. destruct l2 as [|c2 l3]; [cbn in IH; now rewrite <- IH|].
      destruct (digit16 c2) as [i2|] eqn:E2; [|now rewrite IH].
      exfalso. apply (N c1 c2 l3 eq_refl eq_refl). eexists. constructor; apply digit_hex_value; eassumption.
    + destruct (Z.eqb_spec c 43) as [->|N43]; [|now rewrite IH]. destruct cgi; [exfalso; now apply P|now rewrite IH].
  - subst cgi. cbn [uri_decode]. change (43 =? 37) with false. change (43 =? 43) with true. cbn match. now rewrite IH.
Qed.
Lemma encode_text ne bs : Forall is_byte bs -> encoded_text (fun c => c < 128 /\ ne c = true) (uri_encode ne bs).
Proof.
  induction 1 as [|b r H _ IH]; cbn [uri_encode]; [constructor|]. unfold is_byte in H.
  destruct ((b <? 128) && ne b) eqn:E.
  - apply andb_true_iff in E. rewrite Z.ltb_lt in E. apply et_char; assumption.
  - cbn [app]. apply et_octet; [| |assumption]; rewrite hexdigit_nth by lia; apply nth_In; cbn; lia.
Qed.
Lemma encode_decode ne cgi bs : Forall is_byte bs -> ne 37 = false -> (cgi = true -> ne 43 = false) -> uri_decode cgi (uri_encode ne bs) = bs.
Proof.
  intros H N P. apply means_decode. induction H as [|b r H _ IH]; cbn [uri_encode]; [constructor|]. unfold is_byte in H.
  destruct ((b <? 128) && ne b) eqn:E.
  - apply andb_true_iff in E as [_ E]. cbn [app]. apply pm_char; [intros; congruence|intros F; specialize (P F); congruence|exact IH].
  - assert (b = 16 * (b / 16) + b mod 16) as Hb by lia. rewrite Hb at 3. apply (pm_octet cgi [37; hexdigit (b / 16); hexdigit (b mod 16)]); [|exact IH].
    constructor; [exists (Z.to_nat (b / 16))|exists (Z.to_nat (b mod 16))]; (repeat split; [lia|lia|left; apply hexdigit_nth; lia]).
Qed.
