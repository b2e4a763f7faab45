From Coq Require Import List Bool ZArith Lia.
From Verif Require Import Outcome QpModel QpSpec.
Import ListNotations.
Local Open Scope Z_scope.
Ltac Zify.zify_post_hook ::= Z.to_euclidean_division_equations.

Lemma hexdigit_ok d : 0 <= d < 16 -> upper_hex (hexdigit d) /\ hexval (hexdigit d) = d.
Proof. intros H. unfold hexdigit, upper_hex, hexval. destruct (Z.ltb_spec d 10); (split; [lia|]); [destruct (Z.leb_spec (48 + d) 57)|destruct (Z.leb_spec (55 + d) 57)]; lia. Qed.
Lemma digit16_upper c : upper_hex c -> digit16 c = Some (hexval c) /\ c <> 10 /\ c <> 13 /\ c <> 9 /\ c <> 32.
Proof.
  intros H. unfold upper_hex in H. unfold digit16, hexval.
  destruct ((48 <=? c) && (c <=? 57)) eqn:E.
  - apply andb_true_iff in E. rewrite !Z.leb_le in E. rewrite (proj2 (Z.leb_le c 57)) by lia. split; [reflexivity|lia].
  - assert (65 <= c <= 70) by (apply andb_false_iff in E; rewrite !Z.leb_gt in E; lia).
    replace ((65 <=? c) && (c <=? 70)) with true by (symmetry; apply andb_true_iff; rewrite !Z.leb_le; lia).
    rewrite (proj2 (Z.leb_gt c 57)) by lia. split; [reflexivity|lia].
Qed.
Lemma decode_means s bs : qp_means s bs -> qp_decode s = Ok bs.
Proof.
  induction 1 as [|c s bs [P1 [P2 P3]] H IH|s bs H IH|s bs H IH|a b s bs Ha Hb H IH].
  - reflexivity.
  - cbn [qp_decode]. rewrite (proj2 (Z.eqb_neq c 61)) by lia. now rewrite IH.
  - cbn [qp_decode]. change (13 =? 61) with false. change (10 =? 61) with false. cbn match. now rewrite IH.
  - cbn [qp_decode]. exact IH.
  - destruct (digit16_upper a Ha) as (Da & ? & ? & ? & ?). destruct (digit16_upper b Hb) as (Db & _).
    cbn [qp_decode]. change (61 =? 61) with true. cbn match.
    rewrite (proj2 (Z.eqb_neq a 10)), (proj2 (Z.eqb_neq a 13)), (proj2 (Z.eqb_neq a 9)), (proj2 (Z.eqb_neq a 32)) by assumption. cbn [orb].
    rewrite Da, Db, IH. reflexivity.
Qed.
Lemma literal_plain c : literal c = true <-> plain c.
Proof. unfold literal, plain. rewrite !orb_true_iff, !andb_true_iff, !Z.ltb_lt, Z.eqb_eq. lia. Qed.
Lemma means_hex2 c s bs : is_byte c -> qp_means s bs -> qp_means (hex2 c ++ s) (c :: bs).
Proof.
  intros Hc H. unfold is_byte in Hc. unfold hex2. cbn [app].
  destruct (hexdigit_ok (c / 16)) as [A B]; [lia|]. destruct (hexdigit_ok (c mod 16)) as [C D]; [lia|].
  pose proof (qp_octet _ _ _ _ A C H) as Q. rewrite B, D in Q. replace (c / 16 * 16 + c mod 16) with c in Q by lia. exact Q.
Qed.
Lemma len_ind (P : list Z -> Prop) : (forall l, (forall l', (List.length l' < List.length l)%nat -> P l') -> P l) -> forall l, P l.
Proof. intros H l. remember (List.length l) as n eqn:E. revert l E. induction n as [n IH] using lt_wf_ind. intros l ->. apply H. intros l' Hl. eapply IH; [exact Hl|reflexivity]. Qed.
Lemma crlf_cr r : crlf (13 :: r) = 13 :: 10 :: crlf (match r with 10 :: r' => r' | _ => r end).
Proof. destruct r as [|c r]; [reflexivity|]. destruct (Z.eq_dec c 10) as [->|N]; [reflexivity|]. cbn [crlf]. destruct c as [|p|p]; try reflexivity. do 4 (destruct p as [p|p|]; try reflexivity). all: congruence. Qed.
Lemma match10 {A} (c : Z) (x y : A) : c <> 10 -> match c with 10 => x | _ => y end = y.
Proof. intros N. destruct c as [|p|p]; try reflexivity. do 4 (destruct p as [p|p|]; try reflexivity). all: congruence. Qed.
Lemma crlf_other c r : c <> 10 -> c <> 13 -> crlf (c :: r) = c :: crlf r.
Proof. intros N M. cbn [crlf]. destruct c as [|p|p]; try reflexivity. do 4 (destruct p as [p|p|]; try reflexivity); congruence. Qed.
Lemma soft_means limit lcnt s bs : qp_means s bs -> qp_means (fst (soft_break limit lcnt) ++ s) bs.
Proof. intros H. unfold soft_break. destruct limit as [l|]; [destruct (l <=? lcnt)|]; cbn [fst app]; auto. now constructor. Qed.
Lemma encode_binary limit bs : Forall is_byte bs -> forall lcnt, exists s, encode_loop limit true bs lcnt = Ok s /\ qp_means s bs.
Proof.
  induction 1 as [|c r Hc _ IH]; intros lcnt; cbn [encode_loop].
  - exists []. split; [reflexivity|constructor].
  - pose proof (soft_means limit lcnt) as SM. destruct (soft_break limit lcnt) as [pre l0]. cbn [fst andb] in *.
    destruct ((c =? 10) || (c =? 13)) eqn:E.
    + destruct (IH (l0 + 1)) as (s & -> & H). cbn [bind]. eexists. split; [reflexivity|]. apply SM.
      apply orb_true_iff in E. rewrite !Z.eqb_eq in E.
      replace [61; 48; hexdigit c] with (hex2 c) by (destruct E as [-> | ->]; reflexivity). now apply means_hex2.
    + apply orb_false_iff in E. rewrite !Z.eqb_neq in E. destruct E as [E1 E2].
      rewrite (proj2 (Z.eqb_neq c 13)), (proj2 (Z.eqb_neq c 10)) by assumption.
      destruct (literal c) eqn:L.
      * destruct (IH (l0 + 1)) as (s & -> & H). cbn [bind]. eexists. split; [reflexivity|]. apply SM. constructor; [now apply literal_plain|assumption].
      * destruct (IH (l0 + 3)) as (s & -> & H). cbn [bind]. eexists. split; [reflexivity|]. apply SM. now apply means_hex2.
Qed.
Lemma ends_cons c r : ~ ends_with_cr (c :: r) -> ~ ends_with_cr r.
Proof. intros H [a ->]. apply H. exists (c :: a). reflexivity. Qed.
Lemma encode_text limit bs : Forall is_byte bs -> ~ ends_with_cr bs -> forall lcnt, exists s, encode_loop limit false bs lcnt = Ok s /\ qp_means s (crlf bs).
Proof.
  induction bs as [bs IH] using len_ind. intros Hb Hn lcnt. destruct bs as [|c r].
  { exists []. split; [reflexivity|constructor]. }
  cbn [encode_loop]. pose proof (soft_means limit lcnt) as SM. destruct (soft_break limit lcnt) as [pre l0]. cbn [fst andb] in *.
  inversion_clear Hb as [|? ? Hc Hr]. pose proof (ends_cons _ _ Hn) as Hn'.
  assert (IHr : forall l, exists s, encode_loop limit false r l = Ok s /\ qp_means s (crlf r)) by (intros l; apply IH; [cbn; lia|assumption|assumption]).
  destruct (Z.eqb_spec c 13) as [->|N13].
  - rewrite crlf_cr. destruct r as [|c1 r1].
    { exfalso. apply Hn. exists []. reflexivity. }
    destruct (Z.eqb_spec c1 10) as [->|N10].
    + destruct (IH r1) with (lcnt := 0) as (s & E & H); [cbn; lia|inversion Hr; assumption|now apply ends_cons in Hn'|].
      rewrite E. cbn [bind]. eexists. split; [reflexivity|]. apply SM. now apply qp_line.
    + destruct (IHr 0) as (s & E & H). rewrite E. cbn [bind]. eexists. split; [reflexivity|]. apply SM.
      rewrite match10 by assumption. now apply qp_line.
  - destruct (Z.eqb_spec c 10) as [->|N10].
    + destruct (IHr 0) as (s & E & H). rewrite E. cbn [bind]. eexists. split; [reflexivity|]. apply SM. cbn [crlf]. now apply qp_line.
    + rewrite crlf_other by assumption. destruct (literal c) eqn:L.
      * destruct (IHr (l0 + 1)) as (s & E & H). rewrite E. cbn [bind]. eexists. split; [reflexivity|]. apply SM. constructor; [now apply literal_plain|assumption].
      * destruct (IHr (l0 + 3)) as (s & E & H). rewrite E. cbn [bind]. eexists. split; [reflexivity|]. apply SM. now apply means_hex2.
Qed.
(* ---------- line lengths ---------- *)
Lemma lines_line w u s : lines_within w u (13 :: 10 :: s) = lines_within w 0 s. Proof. reflexivity. Qed.
Lemma lines_cons w u c s : c <> 13 -> u < w -> lines_within w (u + 1) s -> lines_within w u (c :: s).
Proof. intros N H K. cbn [lines_within]. destruct c as [|p|p]; try (split; assumption). do 4 (destruct p as [p|p|]; try (split; assumption)). all: congruence. Qed.
Lemma hexdigit_not13 d : 0 <= d < 16 -> hexdigit d <> 13.
Proof. intros H. unfold hexdigit. destruct (d <? 10) eqn:E; lia. Qed.
Lemma encode_lines w binary bs : 4 <= w -> Forall is_byte bs -> (binary = true -> forall c, In c bs -> c <> 10 /\ c <> 13) ->
  forall lcnt s, 0 <= lcnt <= w - 1 -> encode_loop (Some (w - 3)) binary bs lcnt = Ok s -> lines_within w lcnt s.
Proof.
  intros Hw. induction bs as [bs IH] using len_ind. intros Hb Hn lcnt s Hl E. destruct bs as [|c r].
  { injection E as <-. exact Logic.I. }
  cbn [encode_loop] in E. unfold soft_break in E.
  inversion_clear Hb as [|? ? Hc Hr].
  assert (Hn' : binary = true -> forall c, In c r -> c <> 10 /\ c <> 13) by (intros Hbin x Hx; apply Hn; [assumption|now right]).
  assert (BB : binary && ((c =? 10) || (c =? 13)) = false).
  { destruct binary; [|reflexivity]. destruct (Hn eq_refl c (or_introl eq_refl)). cbn [andb]. apply orb_false_iff. rewrite !Z.eqb_neq. tauto. }
  rewrite BB in E.
  assert (IHr : forall l s, 0 <= l <= w - 1 -> encode_loop (Some (w - 3)) binary r l = Ok s -> lines_within w l s) by (intros l s' ? ?; apply (IH r); [cbn; lia|assumption..]).
  (* what follows the soft break *)
  assert (K : forall l0 s', 0 <= l0 <= w - 4 ->
    (if c =? 13 then match r with [] => Err | c1 :: r1 => if c1 =? 10 then do s <- encode_loop (Some (w - 3)) binary r1 0; Ok ([13; 10] ++ s) else do s <- encode_loop (Some (w - 3)) binary r 0; Ok ([13; 10] ++ s) end
     else if c =? 10 then do s <- encode_loop (Some (w - 3)) binary r 0; Ok ([13; 10] ++ s)
     else if literal c then do s <- encode_loop (Some (w - 3)) binary r (l0 + 1); Ok (c :: s)
     else do s <- encode_loop (Some (w - 3)) binary r (l0 + 3); Ok (hex2 c ++ s)) = Ok s' -> lines_within w l0 s').
  { intros l0 s' Hl0. destruct (Z.eqb_spec c 13) as [->|N13].
    - destruct r as [|c1 r1]; [discriminate|]. destruct (c1 =? 10).
      + destruct (encode_loop (Some (w - 3)) binary r1 0) as [x| | |] eqn:Ex; try discriminate. intros [= <-]. cbn [app]. rewrite lines_line.
        apply (IH r1) with (lcnt := 0); [cbn; lia|inversion Hr; assumption|intros Hbin y Hy; apply Hn'; [assumption|now right]|lia|assumption].
      + destruct (encode_loop (Some (w - 3)) binary (c1 :: r1) 0) as [x| | |] eqn:Ex; try discriminate. intros [= <-]. cbn [app]. rewrite lines_line. apply IHr; [lia|assumption].
    - destruct (Z.eqb_spec c 10) as [->|N10].
      + destruct (encode_loop (Some (w - 3)) binary r 0) as [x| | |] eqn:Ex; try discriminate. intros [= <-]. cbn [app]. rewrite lines_line. apply IHr; [lia|assumption].
      + destruct (literal c).
        * destruct (encode_loop (Some (w - 3)) binary r (l0 + 1)) as [x| | |] eqn:Ex; try discriminate. intros [= <-]. apply lines_cons; [assumption|lia|]. apply IHr; [lia|assumption].
        * destruct (encode_loop (Some (w - 3)) binary r (l0 + 3)) as [x| | |] eqn:Ex; try discriminate. intros [= <-]. unfold hex2. cbn [app]. unfold is_byte in Hc.
          apply lines_cons; [lia|lia|]. apply lines_cons; [apply hexdigit_not13; lia|lia|]. apply lines_cons; [apply hexdigit_not13; lia|lia|].
          replace (l0 + 1 + 1 + 1) with (l0 + 3) by lia. apply IHr; [lia|assumption]. }
  destruct (Z.leb_spec (w - 3) lcnt).
  - match type of E with bind ?X _ = _ => destruct X as [x| | |] eqn:Ex; try discriminate end. injection E as <-. cbn [app].
    apply lines_cons; [lia|lia|]. rewrite lines_line. apply K; [lia|exact Ex].
  - match type of E with bind ?X _ = _ => destruct X as [x| | |] eqn:Ex; try discriminate end. injection E as <-. cbn [app]. apply K; [lia|exact Ex].
Qed.
