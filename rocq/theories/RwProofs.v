(** Hexadecimal escapes, strings, words *)
From Coq Require Import List Bool ZArith Lia String.
From Verif Require Import Outcome BignumModel IntModel IntSpec IntTextModel IntTextProofs RwModel RwSpec.
Import ListNotations.
Local Open Scope list_scope.
Local Open Scope Z_scope.
Ltac Zify.zify_post_hook ::= idtac.

(** ** hexadecimal numerals *)
Definition xval (v : Z) (l : list Z) : Z := fold_left (fun v b => v * 16 + xvalue b) l v.
Lemma xval_cons : forall v b l, xval v (b :: l) = xval (v * 16 + xvalue b) l. Proof. reflexivity. Qed.
Lemma hexd_ok : forall d, 0 <= d < 16 -> isxdigit (hexd d) = true /\ xvalue (hexd d) = d /\ hexd d < 128 /\ 48 <= hexd d.
Proof.
  intros d H. unfold hexd. destruct (Z.ltb_spec d 10).
  - unfold isxdigit, xvalue. rewrite (proj2 (Z.leb_le 48 _)), (proj2 (Z.leb_le (d + 48) 57)) by lia. cbn. repeat split; lia.
  - unfold isxdigit, xvalue. rewrite (proj2 (Z.leb_le 97 (d + 87))), (proj2 (Z.leb_le (d + 87) 102)) by lia. rewrite (proj2 (Z.leb_gt (d + 87) 57)), (proj2 (Z.leb_gt (d + 87) 70)) by lia. rewrite !orb_true_r. repeat split; lia.
Qed.
Lemma hex_loop_ok : forall fuel n acc, 0 <= n < 16 ^ Z.of_nat fuel -> Forall (fun b => isxdigit b = true /\ 48 <= b < 128) acc -> (0 < fuel)%nat ->
  xval 0 (hex_loop fuel n acc) = xval n acc /\ Forall (fun b => isxdigit b = true /\ 48 <= b < 128) (hex_loop fuel n acc) /\ hex_loop fuel n acc <> [].
Proof.
  induction fuel as [|f IH]; intros n acc Hn F Hf; [lia|]. cbn [hex_loop]. destruct (Z.ltb_spec n 16).
  - destruct (hexd_ok n) as (A & B & C & D); [lia|]. rewrite xval_cons, B. split; [f_equal; lia|]. split; [constructor; auto|discriminate].
  - assert (P : 0 <= n / 16 < 16 ^ Z.of_nat f). { rewrite Nat2Z.inj_succ, Z.pow_succ_r in Hn by lia. split; [apply Z.div_pos; lia|apply Z.div_lt_upper_bound; lia]. }
    pose proof (Z.mod_pos_bound n 16 ltac:(lia)) as M. destruct (hexd_ok (n mod 16) M) as (A & B & C & D).
    destruct f as [|f']. { change (16 ^ Z.of_nat 1) with 16 in Hn. lia. }
    destruct (IH (n / 16) (hexd (n mod 16) :: acc) P ltac:(constructor; auto) ltac:(lia)) as (E & G & K). split; auto. rewrite E, xval_cons, B. f_equal. pose proof (Z.div_mod n 16). lia.
Qed.
Definition hexdigits (l : list Z) : Prop := Forall (fun b => isxdigit b = true /\ 48 <= b < 128) l.
Lemma hex_ok : forall n, 0 <= n <= CHAR_MAX -> xval 0 (hex n) = n /\ hexdigits (hex n) /\ hex n <> [].
Proof.
  intros n H. unfold hex. unfold CHAR_MAX in H. destruct (hex_loop_ok 8 n []) as (A & B & C); auto; lia.
Qed.
Lemma xval_zeros : forall k l, xval 0 (repeat 48 k ++ l) = xval 0 l.
Proof. induction k; intros l; cbn [repeat app]; auto. rewrite xval_cons. change (0 * 16 + xvalue 48) with 0. apply IHk. Qed.
Lemma hex_pad_ok : forall w n, 0 <= n <= CHAR_MAX -> xval 0 (hex_pad w n) = n /\ hexdigits (hex_pad w n) /\ hex_pad w n <> [].
Proof.
  intros w n H. destruct (hex_ok n H) as (A & B & C). unfold hex_pad. cbv zeta. split; [|split].
  - now rewrite xval_zeros.
  - apply Forall_app. split; auto. generalize (w - List.length (hex n))%nat as k. induction k; cbn [repeat]; [constructor|constructor; [|exact IHk]]. split; [reflexivity|lia].
  - destruct (hex n); [contradiction|]. destruct (repeat _ _); discriminate.
Qed.
Lemma xvalue_nonneg : forall b, isxdigit b = true -> 0 <= xvalue b.
Proof.
  intros b X. unfold isxdigit in X. unfold xvalue. destruct (Z.leb_spec b 57), (Z.leb_spec b 70), (Z.leb_spec 48 b), (Z.leb_spec 65 b), (Z.leb_spec 97 b); cbn in X; try discriminate; lia.
Qed.
Lemma xval_ge : forall l v, hexdigits l -> 0 <= v -> v <= xval v l.
Proof.
  induction l as [|b l IH]; intros v F Hv; [cbn; lia|]. inversion F as [|? ? (X & R1 & R2) F2]; subst. rewrite xval_cons.
  pose proof (xvalue_nonneg b X).
  specialize (IH (v * 16 + xvalue b) F2 ltac:(lia)). lia.
Qed.
Lemma xd_loop_digits : forall ds term i v tl, hexdigits ds -> 0 <= v -> xval v ds <= CHAR_MAX ->
  xd_loop term i v false (ds ++ tl) = xd_loop term (i + List.length ds) (xval v ds) false tl.
Proof.
  induction ds as [|b ds IH]; intros term i v tl F Hv B; cbn [app List.length]. { rewrite Nat.add_0_r. reflexivity. }
  inversion F as [|? ? (X & R1 & R2) F2]; subst. cbn [xd_loop]. rewrite X. cbv zeta. rewrite xval_cons in B |- *. pose proof (xvalue_nonneg b X).
  pose proof (xval_ge ds (v * 16 + xvalue b) F2 ltac:(lia)). rewrite (proj2 (Z.ltb_ge CHAR_MAX (v * 16 + xvalue b))) by lia. cbn [orb]. rewrite IH by (auto; lia). f_equal. lia.
Qed.
Lemma xd_span_digits : forall ds tl, hexdigits ds -> xd_span (ds ++ 59 :: tl) = (ds ++ [59], tl).
Proof.
  induction ds as [|b ds IH]; intros tl F; [reflexivity|]. inversion F as [|? ? (X & R1 & R2) F2]; subst. cbn [app xd_span].
  destruct (Z.eqb_spec b 59) as [->|N]; [vm_compute in X; discriminate|]. rewrite (proj2 (Z.leb_gt 128 b)) by lia. rewrite X. cbn [orb negb]. now rewrite IH.
Qed.
Lemma read_xdigits_port_ok : forall ds tl c, hexdigits ds -> ds <> [] -> xval 0 ds = c -> 0 <= c <= CHAR_MAX -> read_xdigits_port Kx (ds ++ 59 :: tl) = Some ([c], tl).
Proof.
  intros ds tl c F N V B. unfold read_xdigits_port. rewrite xd_span_digits by auto. unfold read_xdigits. rewrite xd_loop_digits by (auto; lia). cbn [xd_loop]. change (isxdigit 59) with false. cbv iota. change (59 =? 59) with true.
  destruct ds as [|d ds]; [contradiction|]. cbn [List.length Nat.add Nat.ltb Nat.leb andb]. now rewrite V.
Qed.
Lemma read_xdigits_word : forall ds c, hexdigits ds -> xval 0 ds = c -> 0 <= c <= CHAR_MAX -> read_xdigits Kx false ds = XChar c [].
Proof.
  intros ds c F V B. unfold read_xdigits. replace (xd_loop false 0 0 false ds) with (xd_loop false 0 0 false (ds ++ [])) by now rewrite app_nil_r. rewrite xd_loop_digits by (auto; lia). cbn [xd_loop negb]. now rewrite V.
Qed.

(** ** strings *)
Lemma read_string_S : forall f st acc c t, read_string (S f) st acc (c :: t) =
      match st with
      | SNormal => if c =? 34 then Got acc t
                   else if c =? 92 then read_string f SBackslash acc t
                   else read_string f SNormal (acc ++ [c]) t
      | SBackslash =>
        if c =? 110 then read_string f SNormal (acc ++ [10]) t
        else if c =? 114 then read_string f SNormal (acc ++ [13]) t
        else if c =? 102 then read_string f SNormal (acc ++ [12]) t
        else if c =? 116 then read_string f SNormal (acc ++ [9]) t
        else if c =? 97 then read_string f SNormal (acc ++ [7]) t
        else if c =? 98 then read_string f SNormal (acc ++ [8]) t
        else if c =? 92 then read_string f SNormal (acc ++ [92]) t
        else if c =? 48 then read_string f SNormal (acc ++ [0]) t
        else if c =? 120 then
          match read_xdigits_port Kx t with None => Fail | Some (cs, r) => read_string f SNormal (acc ++ cs) r end
        else if c =? 117 then
          match read_xdigits_port Ku t with None => Fail | Some (cs, r) => read_string f SNormal (acc ++ cs) r end
        else if c =? 85 then
          match read_xdigits_port KU t with None => Fail | Some (cs, r) => read_string f SNormal (acc ++ cs) r end
        else if (c =? 32) || (c =? 9) then read_string f SLineWs acc t
        else if c =? 13 then read_string f SContCr acc t
        else if c =? 10 then read_string f SContLf acc t
        else if extra_ws true c then read_string f SLineWs acc t
        else read_string f SNormal (acc ++ [c]) t
      | SLineWs =>
        if c =? 13 then read_string f SContCr acc t
        else if c =? 10 then read_string f SContLf acc t
        else if negb (intraline_ws c) then Fail
        else read_string f SLineWs acc t
      | SContCr =>
        if c =? 34 then Got acc t
        else if c =? 92 then read_string f SBackslash acc t
        else if negb (c =? 10) && negb (intraline_ws c) then read_string f SNormal (acc ++ [c]) t
        else read_string f SContLf acc t
      | SContLf =>
        if c =? 34 then Got acc t
        else if c =? 92 then read_string f SBackslash acc t
        else if negb (intraline_ws c) then read_string f SNormal (acc ++ [c]) t
        else read_string f SContLf acc t
      end.
Proof. reflexivity. Qed.
Lemma esc2 : forall f acc e c tl, In (e, c) [(92, 92); (34, 34); (110, 10); (116, 9); (114, 13); (102, 12); (48, 0)] ->
  read_string (2 + f) SNormal acc ([92; e] ++ tl) = read_string f SNormal (acc ++ [c]) tl.
Proof.
  intros f acc e c tl H. cbn [In] in H. repeat (destruct H as [H|H]; [injection H as <- <-; reflexivity|]). contradiction.
Qed.
Lemma hexesc : forall f acc ds c tl, hexdigits ds -> ds <> [] -> xval 0 ds = c -> 0 <= c <= CHAR_MAX ->
  read_string (2 + f) SNormal acc (([92; 120] ++ ds ++ [59]) ++ tl) = read_string f SNormal (acc ++ [c]) tl.
Proof.
  intros f acc ds c tl F N V B. change (2 + f)%nat with (S (S f)). rewrite <- app_assoc. cbn [app]. rewrite read_string_S. change (92 =? 34) with false. change (92 =? 92) with true. cbv iota. rewrite read_string_S.
  repeat match goal with |- context [120 =? ?k] => first [change (120 =? k) with false|change (120 =? k) with true]; cbv iota end. rewrite <- app_assoc. cbn [app]. now rewrite (read_xdigits_port_ok ds tl c).
Qed.
Lemma putc_ok : forall gc bm c, character c -> exists n, (1 <= n <= List.length (string_putc gc bm c))%nat /\
  forall f acc tl, read_string (n + f) SNormal acc (string_putc gc bm c ++ tl) = read_string f SNormal (acc ++ [c]) tl.
Proof.
  intros gc bm c H. unfold character in H. unfold string_putc.
  assert (HX : forall ds, hexdigits ds -> ds <> [] -> xval 0 ds = c -> exists n, (1 <= n <= List.length ([92; 120] ++ ds ++ [59])%Z)%nat /\ forall f acc tl, read_string (n + f) SNormal acc (([92; 120] ++ ds ++ [59]) ++ tl) = read_string f SNormal (acc ++ [c]) tl).
  { intros ds F N V. exists 2%nat. split; [rewrite !app_length; cbn [List.length]; lia|]. intros. apply hexesc; auto. }
  assert (CM : 0 <= c <= CHAR_MAX) by (unfold CHAR_MAX; lia).
  assert (RAW : c <> 34 -> c <> 92 -> exists n, (1 <= n <= List.length [c])%nat /\ forall f acc tl, read_string (n + f) SNormal acc ([c] ++ tl) = read_string f SNormal (acc ++ [c]) tl).
  { intros N1 N2. exists 1%nat. split; [cbn; lia|]. intros f acc tl. cbn [app]. change (1 + f)%nat with (S f). rewrite read_string_S. rewrite (proj2 (Z.eqb_neq c 34)), (proj2 (Z.eqb_neq c 92)) by auto. reflexivity. }
  destruct (Z.eqb_spec c 92) as [->|N1]; [exists 2%nat; split; [cbn; lia|intros; apply esc2; cbn; auto]|].
  destruct (Z.eqb_spec c 34) as [->|N2]; [exists 2%nat; split; [cbn; lia|intros; apply esc2; cbn; auto]|].
  destruct (Z.eqb_spec c 10) as [->|_]; [exists 2%nat; split; [cbn; lia|intros; apply esc2; cbn; auto 8]|].
  destruct (Z.eqb_spec c 9) as [->|_]; [exists 2%nat; split; [cbn; lia|intros; apply esc2; cbn; auto 8]|].
  destruct (Z.eqb_spec c 13) as [->|_]; [exists 2%nat; split; [cbn; lia|intros; apply esc2; cbn; auto 8]|].
  destruct (Z.eqb_spec c 12) as [->|_]; [exists 2%nat; split; [cbn; lia|intros; apply esc2; cbn; auto 8]|].
  destruct (Z.eqb_spec c 0) as [->|_]; [exists 2%nat; split; [cbn; lia|intros; apply esc2; cbn; auto 10]|].
  destruct (hex_pad_ok 2 c CM) as (A2 & B2 & C2). destruct (hex_pad_ok 4 c CM) as (A4 & B4 & C4). destruct (hex_ok c CM) as (A & B & C).
  destruct ((c <? 128) || bm). { destruct ((c <? 32) || (c =? 127) || bm); [apply HX|apply RAW]; auto. }
  destruct (gc c); try (apply RAW; auto; fail); destruct (c <? 65536); apply HX; auto.
Qed.
Lemma read_string_written : forall gc bm s fuel acc rest, Forall character s -> (List.length (flat_map (string_putc gc bm) s) < fuel)%nat ->
  read_string fuel SNormal acc (flat_map (string_putc gc bm) s ++ 34 :: rest) = Got (acc ++ s) rest.
Proof.
  intros gc bm. induction s as [|c s IH]; intros fuel acc rest F Hf.
  - destruct fuel; [cbn in Hf; lia|]. cbn [flat_map app]. rewrite read_string_S. change (34 =? 34) with true. cbv iota. now rewrite app_nil_r.
  - inversion F as [|? ? Hc Fs]; subst. cbn [flat_map] in Hf |- *. rewrite app_length in Hf. destruct (putc_ok gc bm c Hc) as (n & Hn & E).
    rewrite <- app_assoc. replace fuel with (n + (fuel - n))%nat by lia. rewrite E. rewrite IH by (auto; lia). now rewrite <- app_assoc.
Qed.
