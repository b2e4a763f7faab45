From Coq Require Import List Bool ZArith Lia PeanoNat.
From Verif Require Import Outcome Base64Model Base64Spec Base64Proofs.
Import ListNotations.
Local Open Scope Z_scope.
Ltac Zify.zify_post_hook ::= Z.to_euclidean_division_equations.

(* ---------- tables against alphabets ---------- *)
Definition range (n : nat) : list Z := map Z.of_nat (seq 0 n).
Lemma in_range n v : 0 <= v < Z.of_nat n -> In v (range n).
Proof. intros H. unfold range. apply in_map_iff. exists (Z.to_nat v). split; [lia|]. apply in_seq. lia. Qed.
Lemma by_range n (f g : Z -> Z) : map f (range n) = map g (range n) -> forall v, 0 <= v < Z.of_nat n -> f v = g v.
Proof. intros H v Hv. apply in_range in Hv. induction (range n) as [|x r IH]; [easy|]. cbn [map] in H. injection H as H1 H2. destruct Hv as [<-|Hv]; auto. Qed.
Lemma by_rangeo n (f g : Z -> option Z) : map f (range n) = map g (range n) -> forall v, 0 <= v < Z.of_nat n -> f v = g v.
Proof. intros H v Hv. apply in_range in Hv. induction (range n) as [|x r IH]; [easy|]. cbn [map] in H. injection H as H1 H2. destruct Hv as [<-|Hv]; auto. Qed.
Lemma value_none alpha c : ~ In c alpha -> value alpha c = None.
Proof. induction alpha as [|d r IH]; intros H; cbn [value]; [reflexivity|]. destruct (Z.eqb_spec c d) as [->|]; [exfalso; apply H; now left|]. rewrite IH; [reflexivity|]. intros Hi; apply H; now right. Qed.
Lemma lookup_value t alpha : map (lookup t) (range 128) = map (value alpha) (range 128) ->
  forallb (fun c => (32 <? c) && (c <? 128)) alpha = true -> forall c, lookup t c = value alpha c.
Proof.
  intros H Ha c. destruct (Z_lt_ge_dec c 0) as [L|L]; [|destruct (Z_lt_ge_dec c 128) as [L'|L']].
  - unfold lookup. replace (32 <? c) with false by (symmetry; apply Z.ltb_ge; lia). cbn [andb].
    symmetry. apply value_none. intros Hi. rewrite forallb_forall in Ha. apply Ha in Hi. apply andb_true_iff in Hi. rewrite !Z.ltb_lt in Hi. lia.
  - apply (by_rangeo 128); [exact H|lia].
  - unfold lookup. replace (c <? 128) with false by (symmetry; apply Z.ltb_ge; lia). rewrite andb_false_r.
    symmetry. apply value_none. intros Hi. rewrite forallb_forall in Ha. apply Ha in Hi. apply andb_true_iff in Hi. rewrite !Z.ltb_lt in Hi. lia.
Qed.
Lemma std_lookup c : lookup standard_decode c = value alphabet64 c.
Proof. apply lookup_value; vm_compute; reflexivity. Qed.
Lemma url_lookup c : lookup url_safe_decode c = value alphabet64url c.
Proof. apply lookup_value; vm_compute; reflexivity. Qed.
Lemma b32_lookup c : lookup base32_decode_table c = value alphabet32 c.
Proof. apply lookup_value; vm_compute; reflexivity. Qed.
Lemma b32hex_lookup c : lookup base32hex_decode_table c = value alphabet32hex c.
Proof. apply lookup_value; vm_compute; reflexivity. Qed.
Lemma b16_lookup c : lookup base16_decode_table c = value alphabet16 c.
Proof. apply lookup_value; vm_compute; reflexivity. Qed.
Lemma b16lax_lookup c : lookup base16lax_decode_table c = value16lax c.
Proof.
  assert (N : forall c, ~ In c (alphabet16 ++ alphabet16lc) -> value16lax c = None).
  { intros x H. unfold value16lax. rewrite !value_none; [reflexivity| |]; intros Hi; apply H, in_or_app; auto. }
  assert (Ha : forallb (fun c => (32 <? c) && (c <? 128)) (alphabet16 ++ alphabet16lc) = true) by (vm_compute; reflexivity).
  rewrite forallb_forall in Ha.
  destruct (Z_lt_ge_dec c 0) as [L|L]; [|destruct (Z_lt_ge_dec c 128) as [L'|L']].
  - unfold lookup. replace (32 <? c) with false by (symmetry; apply Z.ltb_ge; lia). cbn [andb].
    symmetry. apply N. intros Hi. apply Ha in Hi. apply andb_true_iff in Hi. rewrite !Z.ltb_lt in Hi. lia.
  - apply (by_rangeo 128); [vm_compute; reflexivity|lia].
  - unfold lookup. replace (c <? 128) with false by (symmetry; apply Z.ltb_ge; lia). rewrite andb_false_r.
    symmetry. apply N. intros Hi. apply Ha in Hi. apply andb_true_iff in Hi. rewrite !Z.ltb_lt in Hi. lia.
Qed.
Lemma std_tget v : 0 <= v < 64 -> tget standard_encode v = digit alphabet64 v.
Proof. apply (by_range 64). vm_compute; reflexivity. Qed.
Lemma url_tget v : 0 <= v < 64 -> tget url_safe_encode v = digit alphabet64url v.
Proof. apply (by_range 64). vm_compute; reflexivity. Qed.
Lemma b32_tget v : 0 <= v < 32 -> tget base32_encode_table v = digit alphabet32 v.
Proof. apply (by_range 32). vm_compute; reflexivity. Qed.
Lemma b32hex_tget v : 0 <= v < 32 -> tget base32hex_encode_table v = digit alphabet32hex v.
Proof. apply (by_range 32). vm_compute; reflexivity. Qed.
Lemma b16_tget v : 0 <= v < 16 -> tget base16_encode_table v = digit alphabet16 v.
Proof. apply (by_range 16). vm_compute; reflexivity. Qed.
Lemma b16lc_tget v : 0 <= v < 16 -> tget base16lc_encode_table v = digit alphabet16lc v.
Proof. apply (by_range 16). vm_compute; reflexivity. Qed.
Lemma value_range alpha c v : value alpha c = Some v -> 0 <= v < Z.of_nat (List.length alpha).
Proof.
  revert v. induction alpha as [|d r IH]; cbn [value List.length]; intros v H; [easy|].
  destruct (c =? d); [injection H as <-; lia|]. destruct (value r c) as [x|]; [|easy]. injection H as <-. specialize (IH _ eq_refl). lia.
Qed.

(* ---------- custom digits ---------- *)
Lemma set_nth_length {A} n (v : A) l : List.length (set_nth n v l) = List.length l.
Proof. revert n. induction l; intros [|n]; cbn; auto. Qed.
Lemma set_nth_nth {A} n m (v d : A) l : (n < List.length l)%nat -> nth m (set_nth n v l) d = if Nat.eqb m n then v else nth m l d.
Proof.
  revert n m. induction l as [|x r IH]; intros n m H; cbn [List.length] in H; [lia|].
  destruct n, m; cbn [set_nth nth Nat.eqb]; try reflexivity. apply IH. lia.
Qed.
Lemma digits_decode_custom d0 d1 : valid_digit d0 = true -> valid_digit d1 = true -> 32 < d0 -> 32 < d1 -> (d0, d1) <> (45, 95) ->
  exists t, digits_decode_table d0 d1 = Ok t /\ forall c, lookup t c = custom_value d0 d1 c.
Proof.
  intros V0 V1 G0 G1 N. unfold digits_decode_table. rewrite V0, V1. cbn [andb].
  destruct ((d0 =? 43) && (d1 =? 47)) eqn:E.
  { apply andb_true_iff in E. rewrite !Z.eqb_eq in E. destruct E as [-> ->]. exists standard_decode. split; [reflexivity|].
    intros c. rewrite std_lookup. unfold custom_value.
    destruct (Z.eqb_spec c 47) as [->|]; [vm_compute; reflexivity|]. destruct (Z.eqb_spec c 43) as [->|]; [vm_compute; reflexivity|reflexivity]. }
  destruct ((d0 =? 45) && (d1 =? 95)) eqn:E2.
  { apply andb_true_iff in E2. rewrite !Z.eqb_eq in E2. destruct E2; congruence. }
  assert (B0 : d0 < 128 /\ d1 < 128).
  { unfold valid_digit in *. rewrite !andb_true_iff, !Z.ltb_lt in *. lia. }
  assert (L : List.length standard_decode = 96%nat) by reflexivity.
  unfold vset at 1. rewrite L.
  replace ((0 <=? d0 - 32) && (d0 - 32 <? Z.of_nat 96)) with true by (symmetry; apply andb_true_iff; rewrite Z.leb_le, Z.ltb_lt; lia).
  cbn [bind]. unfold vset. rewrite set_nth_length, L.
  replace ((0 <=? d1 - 32) && (d1 - 32 <? Z.of_nat 96)) with true by (symmetry; apply andb_true_iff; rewrite Z.leb_le, Z.ltb_lt; lia).
  eexists. split; [reflexivity|]. intros c. unfold custom_value. rewrite <- std_lookup. unfold lookup.
  destruct ((32 <? c) && (c <? 128)) eqn:R.
  - apply andb_true_iff in R. rewrite !Z.ltb_lt in R.
    rewrite set_nth_nth by (rewrite set_nth_length, L; lia). rewrite set_nth_nth by (rewrite L; lia).
    destruct (Z.eqb_spec c d1), (Nat.eqb_spec (Z.to_nat (c - 32)) (Z.to_nat (d1 - 32))); try lia; [reflexivity|].
    destruct (Z.eqb_spec c d0), (Nat.eqb_spec (Z.to_nat (c - 32)) (Z.to_nat (d0 - 32))); try lia; reflexivity.
  - apply andb_false_iff in R. rewrite !Z.ltb_ge in R.
    destruct (Z.eqb_spec c d1); [lia|]. destruct (Z.eqb_spec c d0); [lia|]. reflexivity.
Qed.
Lemma digits_encode_custom d0 d1 : valid_digit d0 = true -> valid_digit d1 = true ->
  exists t, digits_encode_table d0 d1 = Ok t /\ (forall v, 0 <= v < 64 -> tget t v = digit (alnum64 ++ [d0; d1]) v) /\ tget t 64 = pad.
Proof.
  intros V0 V1. unfold digits_encode_table. rewrite V0, V1. cbn [andb].
  destruct ((d0 =? 43) && (d1 =? 47)) eqn:E.
  { apply andb_true_iff in E. rewrite !Z.eqb_eq in E. destruct E as [-> ->]. exists standard_encode. split; [reflexivity|]. split; [exact std_tget|reflexivity]. }
  destruct ((d0 =? 45) && (d1 =? 95)) eqn:E2.
  { apply andb_true_iff in E2. rewrite !Z.eqb_eq in E2. destruct E2 as [-> ->]. exists url_safe_encode. split; [reflexivity|]. split; [exact url_tget|reflexivity]. }
  eexists. split; [reflexivity|]. split; [|reflexivity].
  apply (by_range 64). vm_compute. reflexivity.
Qed.

(* ---------- line breaks are noise ---------- *)
Section Noise.
Context (val : Z -> option Z) (Hnl : val 10 = None).
Lemma values_cons c r : values val (c :: r) = match val c with Some v => v :: values val r | None => values val r end.
Proof. unfold values. cbn [flat_map]. destruct (val c); reflexivity. Qed.
Lemma values_app a b : values val (a ++ b) = values val a ++ values val b.
Proof. unfold values. apply flat_map_app. Qed.
Lemma values_break w s : forall room, values val (break_lines w room s) = values val s.
Proof. induction s as [|c r IH]; intros room; cbn [break_lines]; [reflexivity|]. destruct (room =? 1); rewrite !values_cons, ?Hnl, IH; reflexivity. Qed.
Lemma values_pad_break w s : forall room, values val (before_pad (break_lines w room s)) = values val (before_pad s).
Proof.
  induction s as [|c r IH]; intros room; cbn [break_lines]; [reflexivity|].
  destruct (room =? 1); cbn [before_pad]; change (10 =? pad) with false; destruct (c =? pad); try reflexivity; rewrite !values_cons, ?Hnl, IH; reflexivity.
Qed.
Lemma pad_break w s : forall room, In pad s -> In pad (break_lines w room s).
Proof. induction s as [|c r IH]; intros room; cbn [break_lines In]; [easy|]. destruct (room =? 1); cbn [In]; intuition. Qed.
Lemma in_pad_break w s : forall room c, In c (before_pad (break_lines w room s)) -> c = 10 \/ In c (before_pad s).
Proof.
  induction s as [|x r IH]; intros room c; cbn [break_lines]; [easy|].
  destruct (room =? 1); cbn [before_pad]; change (10 =? pad) with false; destruct (x =? pad); cbn [In]; try easy; [intros [H|[H|H]]|intros [H|H]]; auto; apply IH in H; tauto.
Qed.
Lemma values_wrapped lw s : values val (wrapped lw s) = values val s.
Proof. destruct lw as [w|]; cbn [wrapped]; [destruct (0 <? w)|]; auto using values_break. Qed.
Lemma values_pad_wrapped lw s : values val (before_pad (wrapped lw s)) = values val (before_pad s).
Proof. destruct lw as [w|]; cbn [wrapped]; [destruct (0 <? w)|]; auto using values_pad_break. Qed.
Lemma well_formed_wrapped g ws lw s : ws 10 = true -> well_formed g val ws s -> well_formed g val ws (wrapped lw s).
Proof.
  intros Hw [A B]. split.
  - intros c Hc Hv. destruct lw as [w|]; cbn [wrapped] in Hc; [destruct (0 <? w)|]; try now apply A.
    apply in_pad_break in Hc as [->|Hc]; [assumption|now apply A].
  - rewrite values_wrapped. destruct B as [B|B]; [left|now right].
    destruct lw as [w|]; cbn [wrapped]; [destruct (0 <? w)|]; auto using pad_break.
Qed.
Lemma lines_break w s : 0 < w -> ~ In 10 s -> forall room, 1 <= room <= w -> lines_within w (w - room) (break_lines w room s).
Proof.
  intros Hw. induction s as [|c r IH]; intros Hn room Hr; cbn [break_lines]; [exact Logic.I|].
  assert (c <> 10) by (intros ->; apply Hn; now left). assert (~ In 10 r) by (intros H'; apply Hn; now right).
  destruct (Z.eqb_spec room 1) as [->|].
  - cbn [lines_within]. rewrite (proj2 (Z.eqb_neq c 10)) by assumption. cbn [Z.eqb Pos.eqb]. split; [lia|].
    replace 0 with (w - w) at 1 by lia. apply IH; [assumption|lia].
  - cbn [lines_within]. rewrite (proj2 (Z.eqb_neq c 10)) by assumption. split; [lia|].
    replace (w - room + 1) with (w - (room - 1)) by lia. apply IH; [assumption|lia].
Qed.
End Noise.

(* ---------- groups ---------- *)
Fixpoint pads64 (bs : list Z) : list Z := match bs with [] => [] | [_] => [pad; pad] | [_; _] => [pad] | _ :: _ :: _ :: r => pads64 r end.
Fixpoint pads32 (bs : list Z) : list Z :=
  match bs with [] => [] | [_] => repeat pad 6 | [_; _] => repeat pad 4 | [_; _; _] => repeat pad 3 | [_; _; _; _] => [pad] | _ :: _ :: _ :: _ :: _ :: r => pads32 r end.
Lemma rfc64_split alpha p bs : rfc64 alpha p bs = map (digit alpha) (idx64 true bs) ++ (if p then pads64 bs else []).
Proof.
  induction bs as [|a|a b|a b c r IH] using list3_ind; cbn [rfc64 idx64 pads64].
  - now destruct p.
  - now rewrite app_nil_r.
  - now rewrite app_nil_r.
  - rewrite IH, map_app, app_assoc. reflexivity.
Qed.
Lemma rfc32_split alpha p bs : rfc32 alpha p bs = map (digit alpha) (idx32 true bs) ++ (if p then pads32 bs else []).
Proof.
  induction bs as [|a|a b|a b c|a b c d|a b c d e r IH] using list5_ind; cbn [rfc32 idx32 pads32].
  - now destruct p.
  - now rewrite app_nil_r.
  - now rewrite app_nil_r.
  - now rewrite app_nil_r.
  - now rewrite app_nil_r.
  - rewrite IH, map_app, app_assoc. reflexivity.
Qed.
Lemma pads64_head bs : pads64 bs = [] \/ exists r, pads64 bs = pad :: r.
Proof. induction bs as [|a|a b|a b c r IH] using list3_ind; cbn [pads64]; eauto. Qed.
Lemma pads32_head bs : pads32 bs = [] \/ exists r, pads32 bs = pad :: r.
Proof. induction bs as [|a|a b|a b c|a b c d|a b c d e r IH] using list5_ind; cbn [pads32 repeat]; eauto. Qed.
Lemma pads64_nil bs : pads64 bs = [] <-> (List.length bs mod 3 = 0)%nat.
Proof.
  induction bs as [|a|a b|a b c r IH] using list3_ind; try (cbn; intuition congruence).
  cbn [pads64 List.length]. replace (S (S (S (List.length r)))) with (List.length r + 1 * 3)%nat by lia. now rewrite Nat.mod_add by lia.
Qed.
Lemma pads32_nil bs : pads32 bs = [] <-> (List.length bs mod 5 = 0)%nat.
Proof.
  induction bs as [|a|a b|a b c|a b c d|a b c d e r IH] using list5_ind; try (cbn; intuition congruence).
  cbn [pads32 List.length]. replace (S (S (S (S (S (List.length r)))))) with (List.length r + 1 * 5)%nat by lia. now rewrite Nat.mod_add by lia.
Qed.
Lemma idx64_len bs : (List.length (idx64 true bs) mod 4 = 0)%nat <-> (List.length bs mod 3 = 0)%nat.
Proof.
  induction bs as [|a|a b|a b c r IH] using list3_ind; try (cbn; intuition congruence).
  cbn [idx64 to_base app List.length]. replace (S (S (S (List.length r)))) with (List.length r + 1 * 3)%nat by lia.
  replace (S (S (S (S (List.length (idx64 true r)))))) with (List.length (idx64 true r) + 1 * 4)%nat by lia. rewrite !Nat.mod_add by lia. exact IH.
Qed.
Lemma idx32_len bs : (List.length (idx32 true bs) mod 8 = 0)%nat <-> (List.length bs mod 5 = 0)%nat.
Proof.
  induction bs as [|a|a b|a b c|a b c d|a b c d e r IH] using list5_ind; try (cbn; intuition congruence).
  cbn [idx32 to_base app List.length]. replace (S (S (S (S (S (List.length r)))))) with (List.length r + 1 * 5)%nat by lia.
  replace (S (S (S (S (S (S (S (S (List.length (idx32 true r)))))))))) with (List.length (idx32 true r) + 1 * 8)%nat by lia. rewrite !Nat.mod_add by lia. exact IH.
Qed.
Lemma idx64_range bs v : In v (idx64 true bs) -> 0 <= v < 64.
Proof.
  induction bs as [|a|a b|a b c r IH] using list3_ind; cbn [idx64]; rewrite ?app_nil_r; try easy.
  - intros H; eapply in_to_base; [|eapply in_firstn, H]; lia.
  - intros H; eapply in_to_base; [|eapply in_firstn, H]; lia.
  - intros H. apply in_app_or in H as [H|H]; [eapply in_to_base; [|exact H]; lia|auto].
Qed.
Lemma idx32_range bs v : In v (idx32 true bs) -> 0 <= v < 32.
Proof.
  induction bs as [|a|a b|a b c|a b c d|a b c d e r IH] using list5_ind; cbn [idx32]; rewrite ?app_nil_r; try easy;
   try (intros H; eapply in_to_base; [|eapply in_firstn, H]; lia).
  intros H. apply in_app_or in H as [H|H]; [eapply in_to_base; [|exact H]; lia|auto].
Qed.
Lemma p64 a b c : is_byte a -> is_byte b -> is_byte c ->
  to_base 64 4 (from_base 256 [a; b; c]) = [a / 4; a mod 4 * 16 + b / 16; b mod 16 * 4 + c / 64; c mod 64].
Proof. unfold is_byte. intros. basen. repeat (apply (f_equal2 cons); [lia|]). reflexivity. Qed.
Lemma bytes64_idx bs : Forall is_byte bs -> bytes64 (idx64 true bs) = bs.
Proof.
  pose proof zero_byte as Z0.
  induction bs as [|a|a b|a b c r IH] using list3_ind; intros H; repeat match goal with H : Forall _ (_ :: _) |- _ => inversion_clear H end; cbn [idx64];
    rewrite ?p64 by assumption; cbn [app firstn bytes64]; unfold is_byte in *; rewrite ?q64 by lia; cbn [app firstn]; rewrite ?IH by assumption.
  - reflexivity.
  - repeat (apply (f_equal2 cons); [lia|]). reflexivity.
  - repeat (apply (f_equal2 cons); [lia|]). reflexivity.
  - repeat (apply (f_equal2 cons); [lia|]). reflexivity.
Qed.
Lemma bytes32_idx bs : Forall is_byte bs -> bytes32 (idx32 true bs) = bs.
Proof.
  pose proof zero_byte as Z0.
  induction bs as [|a|a b|a b c|a b c d|a b c d e r IH] using list5_ind; intros H; repeat match goal with H : Forall _ (_ :: _) |- _ => inversion_clear H end; cbn [idx32];
    rewrite ?p32 by assumption; cbn [app firstn bytes32]; unfold is_byte in *; rewrite ?q32 by lia; cbn [app firstn]; rewrite ?IH by assumption;
  repeat (apply (f_equal2 cons); [lia|]); reflexivity.
Qed.
Section Digits.
Context (val : Z -> option Z) (alpha : list Z) (n : Z).
Context (Hd : forall v, 0 <= v < n -> val (digit alpha v) = Some v /\ digit alpha v <> pad).
Lemma before_pad_app l r : ~ In pad l -> (r = [] \/ exists r', r = pad :: r') -> before_pad (l ++ r) = l.
Proof.
  intros H Hr. induction l as [|c l IH]; cbn [app before_pad].
  - destruct Hr as [->|[r' ->]]; reflexivity.
  - destruct (Z.eqb_spec c pad) as [->|]; [exfalso; apply H; now left|]. rewrite IH; [reflexivity|]. intros Hi; apply H; now right.
Qed.
Lemma no_pad ds : (forall v, In v ds -> 0 <= v < n) -> ~ In pad (map (digit alpha) ds).
Proof. intros H Hi. apply in_map_iff in Hi as (v & E & Hv). apply H in Hv. apply Hd in Hv as [_ ?]. congruence. Qed.
Lemma values_digits ds : (forall v, In v ds -> 0 <= v < n) -> values val (map (digit alpha) ds) = ds.
Proof.
  induction ds as [|v r IH]; intros H; [reflexivity|]. cbn [map]. rewrite values_cons.
  destruct (Hd v) as [-> _]; [apply H; now left|]. rewrite IH; [reflexivity|]. intros; apply H; now right.
Qed.
Lemma no_noise_digits ws ds : (forall v, In v ds -> 0 <= v < n) -> no_noise val ws (map (digit alpha) ds).
Proof. intros H c Hc E. apply in_map_iff in Hc as (v & <- & Hv). apply H in Hv. apply Hd in Hv as [? _]. congruence. Qed.
End Digits.

(* ---------- base64 ---------- *)
Lemma usable_valid d : usable_digit d -> valid_digit d = true.
Proof.
  intros (R & N & P). unfold valid_digit. rewrite !andb_true_iff, Z.leb_le, Z.ltb_lt, negb_true_iff.
  split; [lia|]. apply not_true_iff_false. intros H. unfold pad in P.
  assert (B : forallb (fun c => negb ((65 <=? c) && (c <=? 90) || (97 <=? c) && (c <=? 122) || (48 <=? c) && (c <=? 57) || (c =? 61)) ||
     (if in_dec Z.eq_dec c alnum64 then true else c =? 61)) (range 128) = true) by (vm_compute; reflexivity).
  rewrite forallb_forall in B. specialize (B d (in_range 128 d ltac:(lia))). rewrite H in B. cbn [negb orb] in B.
  destruct (in_dec Z.eq_dec d alnum64); [contradiction|]. apply Z.eqb_eq in B. congruence.
Qed.
Definition alpha_of (a : alphabet) : list Z :=
  match a with Standard => alphabet64 | UrlSafe => alphabet64url | Digits d0 d1 => alnum64 ++ [d0; d1] end.
Definition usable (a : alphabet) : Prop :=
  match a with Digits d0 d1 => usable_digit d0 /\ usable_digit d1 | _ => True end.
Definition value_of (a : alphabet) : Z -> option Z :=
  match a with
  | Standard => value alphabet64 | UrlSafe => value alphabet64url
  | Digits d0 d1 => if (d0 =? 45) && (d1 =? 95) then value alphabet64url else custom_value d0 d1
  end.
Lemma encode64 a lw omit bs : usable a -> Forall is_byte bs ->
  base64_encode a lw omit bs = Ok (wrapped lw (rfc64 (alpha_of a) (negb omit) bs)).
Proof.
  intros Ha Hb. unfold base64_encode. destruct a as [| |d0 d1]; cbn [bind alpha_of].
  - rewrite e64_emit, emit_wrapped by assumption. do 2 f_equal. apply idx64_rfc; [exact std_tget|reflexivity].
  - rewrite e64_emit, emit_wrapped by assumption. do 2 f_equal. apply idx64_rfc; [exact url_tget|reflexivity].
  - destruct Ha as [H0 H1]. destruct (digits_encode_custom d0 d1) as (t & -> & Ht & Hp); auto using usable_valid.
    cbn [bind]. rewrite e64_emit, emit_wrapped by assumption. do 2 f_equal. now apply idx64_rfc.
Qed.
Lemma decode_table a : usable a ->
  exists t, (match a with Standard => Ok standard_decode | UrlSafe => Ok url_safe_decode | Digits d0 d1 => digits_decode_table d0 d1 end) = Ok t
    /\ forall c, lookup t c = value_of a c.
Proof.
  intros Ha. destruct a as [| |d0 d1]; cbn [value_of].
  - exists standard_decode. split; [reflexivity|exact std_lookup].
  - exists url_safe_decode. split; [reflexivity|exact url_lookup].
  - destruct Ha as [H0 H1]. destruct ((d0 =? 45) && (d1 =? 95)) eqn:E.
    + apply andb_true_iff in E. rewrite !Z.eqb_eq in E. destruct E as [-> ->]. exists url_safe_decode. split; [reflexivity|exact url_lookup].
    + apply digits_decode_custom; auto using usable_valid; try apply H0; try apply H1.
      intros [= -> ->]. discriminate.
Qed.
Lemma value_of_range a c v : value_of a c = Some v -> 0 <= v < 64.
Proof.
  intros H.
  assert (S : forall v, value alphabet64 c = Some v -> 0 <= v < 64) by (intros ? HH; apply value_range in HH; exact HH).
  assert (U : forall v, value alphabet64url c = Some v -> 0 <= v < 64) by (intros ? HH; apply value_range in HH; exact HH).
  destruct a as [| |d0 d1]; cbn [value_of] in H; [exact (S _ H)|exact (U _ H)|]. destruct ((d0 =? 45) && (d1 =? 95)); [exact (U _ H)|].
  unfold custom_value in H. destruct (c =? d1); [clear S U; injection H as <-; lia|]. destruct (c =? d0); [clear S U; injection H as <-; lia|]. exact (S _ H).
Qed.
Lemma values_ext f g s : (forall c, f c = g c) -> values f s = values g s.
Proof. intros H. unfold values. induction s; cbn [flat_map]; [reflexivity|]. now rewrite H, IHs. Qed.
Lemma decode64 a strict ws s : usable a ->
  (strict = false \/ well_formed 4 (value_of a) ws s -> base64_decode a strict ws s = Ok (bytes64 (values (value_of a) (before_pad s)))) /\
  (strict = true -> ~ well_formed 4 (value_of a) ws s -> base64_decode a strict ws s = Err).
Proof.
  intros Ha. unfold base64_decode. destruct (decode_table a Ha) as (t & -> & Ht). cbn [bind].
  assert (Hv : forall c v, lookup t c = Some v -> 0 <= v < 64) by (intros c v; rewrite Ht; apply value_of_range).
  rewrite (proj1 (d64_spec t strict ws Hv s)). unfold vb. rewrite (values_ext (lookup t) (value_of a) _ Ht).
  assert (W : wrong t ws 4 0 s = false <-> well_formed 4 (value_of a) ws s).
  { rewrite (wrong_spec t ws) by lia. unfold well_formed, no_noise. cbn [Nat.add]. rewrite (values_ext (lookup t) (value_of a) _ Ht).
    split; intros [A B]; split; auto; intros c; [rewrite <- Ht|rewrite Ht]; apply A. }
  unfold outcome. split.
  - intros [->|H]; [reflexivity|]. apply (proj2 W) in H. rewrite H, andb_false_r. reflexivity.
  - intros -> H. destruct (wrong t ws 4 0 s); [reflexivity|]. exfalso; apply H, (proj1 W). reflexivity.
Qed.
Definition distinct_digits (a : alphabet) : Prop := match a with Digits d0 d1 => d0 <> d1 | _ => True end.
Lemma digit_value a v : usable a -> distinct_digits a -> 0 <= v < 64 -> value_of a (digit (alpha_of a) v) = Some v /\ digit (alpha_of a) v <> pad.
Proof.
  intros Ha Hne Hv.
  assert (NP : forall alpha, ~ In pad alpha -> List.length alpha = 64%nat -> digit alpha v <> pad).
  { intros alpha Hp Hl E. apply Hp. rewrite <- E. unfold digit. apply nth_In. lia. }
  destruct a as [| |d0 d1].
  - split; [|apply NP; [vm_compute; intuition congruence|reflexivity]].
    cbn [value_of alpha_of]. apply (by_rangeo 64 (fun v => value alphabet64 (digit alphabet64 v)) Some); [vm_compute; reflexivity|lia].
  - split; [|apply NP; [vm_compute; intuition congruence|reflexivity]].
    cbn [value_of alpha_of]. apply (by_rangeo 64 (fun v => value alphabet64url (digit alphabet64url v)) Some); [vm_compute; reflexivity|lia].
  - destruct Ha as [(R0 & N0 & P0) (R1 & N1 & P1)]. cbn [distinct_digits] in Hne. split.
    2: { apply NP; [|reflexivity]. cbn [alpha_of]. intros Hi. apply in_app_or in Hi as [Hi|[Hi|[Hi|[]]]]; [vm_compute in Hi; intuition congruence|congruence|congruence]. }
    cbn [value_of]. destruct ((d0 =? 45) && (d1 =? 95)) eqn:E.
    { apply andb_true_iff in E. rewrite !Z.eqb_eq in E. destruct E as [-> ->].
      apply (by_rangeo 64 (fun v => value alphabet64url (digit (alnum64 ++ [45; 95]) v)) Some); [vm_compute; reflexivity|lia]. }
    cbn [alpha_of]. unfold custom_value.
    destruct (Z_lt_ge_dec v 62) as [L|L].
    + assert (D : digit (alnum64 ++ [d0; d1]) v = digit alnum64 v) by (unfold digit; apply app_nth1; cbn; lia).
      assert (I0 : In (digit alnum64 v) alnum64) by (unfold digit; apply nth_In; cbn; lia).
      rewrite D. destruct (Z.eqb_spec (digit alnum64 v) d1); [congruence|]. destruct (Z.eqb_spec (digit alnum64 v) d0); [congruence|].
      apply (by_rangeo 62 (fun v => value alphabet64 (digit alnum64 v)) Some); [vm_compute; reflexivity|lia].
    + assert (v = 62 \/ v = 63) as [-> | ->] by lia.
      * assert (D : digit (alnum64 ++ [d0; d1]) 62 = d0) by reflexivity.
        rewrite D. rewrite (proj2 (Z.eqb_neq d0 d1)) by assumption. now rewrite Z.eqb_refl.
      * assert (D : digit (alnum64 ++ [d0; d1]) 63 = d1) by reflexivity.
        rewrite D. now rewrite Z.eqb_refl.
Qed.
Lemma value_of_nl a : usable a -> value_of a 10 = None.
Proof.
  destruct a as [| |d0 d1]; cbn [usable value_of]; intros H; try reflexivity. destruct H as [(? & _) (? & _)].
  destruct ((d0 =? 45) && (d1 =? 95)); [reflexivity|]. unfold custom_value.
  rewrite (proj2 (Z.eqb_neq 10 d1)), (proj2 (Z.eqb_neq 10 d0)) by lia. reflexivity.
Qed.
Lemma round64 a lw omit strict ws bs : usable a -> distinct_digits a -> Forall is_byte bs -> ws 10 = true ->
  (strict = true -> omit = true -> (List.length bs mod 3 = 0)%nat) ->
  bind (base64_encode a lw omit bs) (base64_decode a strict ws) = Ok bs.
Proof.
  intros Ha Hne Hb Hw Hs. rewrite encode64 by assumption. cbn [bind].
  assert (Hd : forall v, 0 <= v < 64 -> value_of a (digit (alpha_of a) v) = Some v /\ digit (alpha_of a) v <> pad) by (intros; now apply digit_value).
  pose proof (value_of_nl a Ha) as Hnl.
  assert (BP : before_pad (rfc64 (alpha_of a) (negb omit) bs) = map (digit (alpha_of a)) (idx64 true bs)).
  { rewrite rfc64_split. apply before_pad_app; [eapply no_pad; [exact Hd|apply idx64_range]|].
    destruct omit; cbn [negb]; [now left|apply pads64_head]. }
  rewrite (proj1 (decode64 a strict ws _ Ha)).
  - rewrite values_pad_wrapped by assumption. rewrite BP, (values_digits _ _ 64 Hd) by apply idx64_range. f_equal. now apply bytes64_idx.
  - destruct strict; [right|now left]. apply well_formed_wrapped; [assumption..|]. split.
    + rewrite BP. eapply no_noise_digits; [exact Hd|apply idx64_range].
    + destruct (pads64_head bs) as [E|[r E]].
      * right. rewrite rfc64_split. replace (if negb omit then pads64 bs else []) with (@nil Z) by (destruct (negb omit); auto).
        rewrite app_nil_r, (values_digits _ _ 64 Hd) by apply idx64_range. apply idx64_len, pads64_nil, E.
      * destruct omit.
        -- exfalso. specialize (Hs eq_refl eq_refl). apply pads64_nil in Hs. congruence.
        -- left. rewrite rfc64_split. cbn [negb]. rewrite E. apply in_or_app. right. now left.
Qed.
(* ---------- base32 ---------- *)
Definition alpha32_of (hex : bool) := if hex then alphabet32hex else alphabet32.
Lemma encode32 (hex : bool) lw omit bs : Forall is_byte bs -> base32_encode hex lw omit bs = wrapped lw (rfc32 (alpha32_of hex) (negb omit) bs).
Proof.
  intros Hb. unfold base32_encode, alpha32_of. rewrite e32_emit, emit_wrapped by assumption. f_equal.
  destruct hex; apply idx32_rfc; try reflexivity; [exact b32hex_tget|exact b32_tget].
Qed.
Lemma table32 (hex : bool) c : lookup (if hex then base32hex_decode_table else base32_decode_table) c = value (alpha32_of hex) c.
Proof. destruct hex; [apply b32hex_lookup|apply b32_lookup]. Qed.
Lemma decode32_stuck (hex : bool) strict ws s : stuck (if hex then base32hex_decode_table else base32_decode_table) 0 s = false ->
  (strict = false \/ well_formed 8 (value (alpha32_of hex)) ws s -> base32_decode hex strict ws s = Ok (bytes32 (values (value (alpha32_of hex)) (before_pad s)))) /\
  (strict = true -> ~ well_formed 8 (value (alpha32_of hex)) ws s -> base32_decode hex strict ws s = Err).
Proof.
  intros Hst. unfold base32_decode. set (t := if hex then base32hex_decode_table else base32_decode_table) in *.
  assert (Ht : forall c, lookup t c = value (alpha32_of hex) c) by apply table32.
  assert (Hv : forall c v, lookup t c = Some v -> 0 <= v < 32).
  { intros c v. rewrite Ht. intros H. apply value_range in H. destruct hex; exact H. }
  rewrite (proj1 (d32_spec t strict ws Hv s)) by exact Hst. unfold vb. rewrite (values_ext (lookup t) _ _ Ht).
  assert (W : wrong t ws 8 0 s = false <-> well_formed 8 (value (alpha32_of hex)) ws s).
  { rewrite (wrong_spec t ws) by lia. unfold well_formed, no_noise. cbn [Nat.add]. rewrite (values_ext (lookup t) _ _ Ht).
    split; intros [A B]; split; auto; intros c; [rewrite <- Ht|rewrite Ht]; apply A. }
  unfold outcome. split.
  - intros [->|H]; [reflexivity|]. apply (proj2 W) in H. rewrite H, andb_false_r. reflexivity.
  - intros -> H. destruct (wrong t ws 8 0 s); [reflexivity|]. exfalso; apply H, (proj1 W). reflexivity.
Qed.
Lemma decode32 (hex : bool) strict ws s : no_noise_before_last (value (alpha32_of hex)) s ->
  (strict = false \/ well_formed 8 (value (alpha32_of hex)) ws s -> base32_decode hex strict ws s = Ok (bytes32 (values (value (alpha32_of hex)) (before_pad s)))) /\
  (strict = true -> ~ well_formed 8 (value (alpha32_of hex)) ws s -> base32_decode hex strict ws s = Err).
Proof.
  intros H. apply decode32_stuck. apply (stuck_spec _ ws); [lia|]. intros a c b E P. rewrite table32. intros N.
  rewrite (values_ext _ (value (alpha32_of hex)) _ (table32 hex)). eapply H; eassumption.
Qed.
Lemma digit32 (hex : bool) v : 0 <= v < 32 -> value (alpha32_of hex) (digit (alpha32_of hex) v) = Some v /\ digit (alpha32_of hex) v <> pad.
Proof.
  intros Hv. split.
  - destruct hex; cbn [alpha32_of].
    + apply (by_rangeo 32 (fun v => value alphabet32hex (digit alphabet32hex v)) Some); [vm_compute; reflexivity|lia].
    + apply (by_rangeo 32 (fun v => value alphabet32 (digit alphabet32 v)) Some); [vm_compute; reflexivity|lia].
  - intros E. assert (In (digit (alpha32_of hex) v) (alpha32_of hex)) by (unfold digit; apply nth_In; destruct hex; cbn; lia).
    rewrite E in H. destruct hex; vm_compute in H; intuition congruence.
Qed.
Lemma stuck_plain t s : (forall c, In c s -> c = pad \/ lookup t c <> None) -> forall n, stuck t n s = false.
Proof.
  induction s as [|c r IH]; intros H n; cbn [stuck]; [reflexivity|]. destruct (Z.eqb_spec c 61) as [|N]; [reflexivity|].
  destruct (H c (or_introl eq_refl)) as [E|E]; [contradiction|]. destruct (lookup t c); [|congruence]. apply IH. intros; apply H; now right.
Qed.
Lemma stuck_break t w s : Z.even w = true -> 0 < w -> (forall c, In c s -> c = pad \/ lookup t c <> None) -> lookup t 10 = None ->
  forall n room, (n < 8)%nat -> 1 <= room <= w -> Z.even (Z.of_nat n) = Z.even room -> stuck t n (break_lines w room s) = false.
Proof.
  intros We Hw Hs Hnl. induction s as [|c r IH]; intros n room Hn Hr He; cbn [break_lines stuck]; [reflexivity|].
  assert (Hc : c = pad \/ lookup t c <> None) by (apply Hs; now left).
  assert (Hrr : forall c, In c r -> c = pad \/ lookup t c <> None) by (intros; apply Hs; now right).
  specialize (IH Hrr).
  set (n' := if (S n =? 8)%nat then 0%nat else S n).
  assert (Hn' : (n' < 8)%nat) by (unfold n'; destruct (Nat.eqb_spec (S n) 8); lia).
  assert (En' : Z.even (Z.of_nat n') = negb (Z.even (Z.of_nat n))).
  { unfold n'. destruct (Nat.eqb_spec (S n) 8) as [e|e].
    - assert (n = 7%nat) by lia. subst n. reflexivity.
    - rewrite Nat2Z.inj_succ, Z.even_succ, <- Z.negb_even. reflexivity. }
  destruct (Z.eqb_spec room 1) as [->|Hr1]; cbn [stuck]; (destruct (Z.eqb_spec c 61) as [|N]; [reflexivity|]);
    (destruct Hc as [E|E]; [contradiction|]); destruct (lookup t c); try congruence; fold n'.
  - rewrite Hnl. rewrite He in En'. change (10 =? 61) with false. cbn match.
    apply orb_false_iff. split.
    + apply Nat.eqb_neq. intros e. rewrite e in En'. discriminate.
    + apply IH; [assumption|lia|]. rewrite En', We. reflexivity.
  - apply IH; [assumption|lia|]. rewrite En', He. rewrite Z.negb_even. replace room with (Z.succ (room - 1)) at 1 by lia. now rewrite Z.odd_succ.
Qed.
Lemma pads32_all bs c : In c (pads32 bs) -> c = pad.
Proof. induction bs as [|a|a b|a b d|a b d e|a b d e f r IH] using list5_ind; cbn [pads32 repeat In]; intuition congruence. Qed.
Lemma round32 (hex : bool) lw omit strict ws bs : Forall is_byte bs -> ws 10 = true ->
  (strict = true -> omit = true -> (List.length bs mod 5 = 0)%nat) ->
  (forall w, lw = Some w -> 0 < w -> Z.even w = true) ->
  base32_decode hex strict ws (base32_encode hex lw omit bs) = Ok bs.
Proof.
  intros Hb Hw Hs He. rewrite encode32 by assumption.
  pose proof (digit32 hex) as Hd.
  assert (Hnl : value (alpha32_of hex) 10 = None) by (destruct hex; reflexivity).
  assert (BP : before_pad (rfc32 (alpha32_of hex) (negb omit) bs) = map (digit (alpha32_of hex)) (idx32 true bs)).
  { rewrite rfc32_split. apply before_pad_app; [eapply no_pad; [exact Hd|apply idx32_range]|].
    destruct omit; cbn [negb]; [now left|apply pads32_head]. }
  assert (HC : forall c, In c (rfc32 (alpha32_of hex) (negb omit) bs) -> c = pad \/ lookup (if hex then base32hex_decode_table else base32_decode_table) c <> None).
  { intros c. rewrite rfc32_split. intros H. apply in_app_or in H as [H|H].
    - right. apply in_map_iff in H as (v & <- & Hv). rewrite table32. apply idx32_range in Hv. destruct (Hd v Hv) as [-> _]. discriminate.
    - left. destruct omit; [destruct H|]. eapply pads32_all, H. }
  assert (ST : stuck (if hex then base32hex_decode_table else base32_decode_table) 0 (wrapped lw (rfc32 (alpha32_of hex) (negb omit) bs)) = false).
  { destruct lw as [w|]; cbn [wrapped]; [|now apply stuck_plain]. destruct (Z.ltb_spec 0 w); [|now apply stuck_plain].
    specialize (He w eq_refl H). apply stuck_break; try assumption; try lia; [destruct hex; reflexivity|]. now rewrite He. }
  rewrite (proj1 (decode32_stuck hex strict ws _ ST)).
  - rewrite values_pad_wrapped by assumption. rewrite BP, (values_digits _ _ 32 Hd) by apply idx32_range. f_equal. now apply bytes32_idx.
  - destruct strict; [right|now left]. apply well_formed_wrapped; [assumption..|]. split.
    + rewrite BP. eapply no_noise_digits; [exact Hd|apply idx32_range].
    + destruct (pads32_head bs) as [E|[r E]].
      * right. rewrite rfc32_split. replace (if negb omit then pads32 bs else []) with (@nil Z) by (destruct (negb omit); auto).
        rewrite app_nil_r, (values_digits _ _ 32 Hd) by apply idx32_range. apply idx32_len, pads32_nil, E.
      * destruct omit.
        -- exfalso. specialize (Hs eq_refl eq_refl). apply pads32_nil in Hs. congruence.
        -- left. rewrite rfc32_split. cbn [negb]. rewrite E. apply in_or_app. right. now left.
Qed.
(* ---------- base16 ---------- *)
Definition alpha16_of (lc : bool) := if lc then alphabet16lc else alphabet16.
Lemma encode16 lc bs : Forall is_byte bs -> base16_encode lc bs = rfc16 (alpha16_of lc) bs.
Proof.
  intros H. unfold base16_encode, rfc16. induction H as [|b r Hb _ IH]; cbn [flat_map]; [reflexivity|]. rewrite IH. f_equal.
  unfold is_byte in Hb. bits. basen. cbn [map].
  assert (T : forall v, 0 <= v < 16 -> tget (if lc then base16lc_encode_table else base16_encode_table) v = digit (alpha16_of lc) v).
  { destruct lc; [exact b16lc_tget|exact b16_tget]. }
  rewrite !T by lia. repeat (f_equal; try lia).
Qed.
Definition value16 (strict : bool) : Z -> option Z := if strict then value alphabet16 else value16lax.
Lemma value16_range strict c v : value16 strict c = Some v -> 0 <= v < 16.
Proof.
  assert (S : forall v, value alphabet16 c = Some v -> 0 <= v < 16) by (intros ? HH; apply value_range in HH; exact HH).
  assert (U : forall v, value alphabet16lc c = Some v -> 0 <= v < 16) by (intros ? HH; apply value_range in HH; exact HH).
  unfold value16, value16lax. destruct strict; [exact (S v)|]. destruct (value alphabet16 c); [intros [= ->]; now apply S|apply U].
Qed.
Definition well_formed16 (val : Z -> option Z) (ws : Z -> bool) (s : list Z) : Prop :=
  no_noise val ws s /\ (List.length (values val s) mod 2 = 0)%nat.
Section D16.
Context (t : list (option Z)) (strict : bool) (ws : Z -> bool).
Fixpoint wrong16 (odd : bool) (s : list Z) : bool :=
  match s with
  | [] => odd
  | c :: r => match lookup t c with Some _ => wrong16 (negb odd) r | None => if ws c then wrong16 odd r else true end
  end.
Lemma step16 c r :
  d16_0 t strict ws (c :: r) = match lookup t c with Some v => d16_1 t strict ws v r | None => if bad strict ws c then Err else d16_0 t strict ws r end /\
  forall b, d16_1 t strict ws b (c :: r) = match lookup t c with Some v => emit_byte (Z.shiftl b 4 + v) (d16_0 t strict ws r) | None => if bad strict ws c then Err else d16_1 t strict ws b r end.
Proof. split; reflexivity. Qed.
Lemma d16_spec s :
  d16_0 t strict ws s = outcome strict (wrong16 false s) (bytes16 (values (lookup t) s)) /\
  forall b, d16_1 t strict ws b s = outcome strict (wrong16 true s) (bytes16 (b :: values (lookup t) s)).
Proof.
  induction s as [|c r [I0 I1]].
  - split; intros; unfold outcome; cbn; [now rewrite andb_false_r|destruct strict; reflexivity].
  - destruct (step16 c r) as [S0 S1]. setoid_rewrite S0. setoid_rewrite S1. clear S0 S1. cbn [wrong16]. rewrite values_cons.
    destruct (lookup t c) as [v|] eqn:E; cbn [negb].
    + split; [apply I1|]. intros b. rewrite I0, emit_outcome. cbn [bytes16]. bits. basen. do 2 f_equal.
    + split; intros; rewrite ?I0, ?I1; now apply (bad_outcome t).
Qed.
Lemma wrong16_spec s : forall odd, wrong16 odd s = false <-> no_noise (lookup t) ws s /\ (((if odd then 1 else 0) + List.length (values (lookup t) s)) mod 2 = 0)%nat.
Proof.
  induction s as [|c r IH]; intros odd; cbn [wrong16].
  - cbn [values flat_map List.length]. destruct odd; cbn; split; try easy; intros [_ H]; discriminate.
  - rewrite values_cons. assert (NN : no_noise (lookup t) ws (c :: r) <-> no_noise (lookup t) ws r /\ (lookup t c = None -> ws c = true)).
    { unfold no_noise. split; [intros H; split; [intros; apply H; [now right|assumption]|apply H; now left]|intros [A B] x [<-|Hx]; auto]. }
    rewrite NN. destruct (lookup t c) eqn:E.
    + rewrite IH. cbn [List.length]. destruct odd; cbn [negb].
      * replace (1 + S (List.length (values (lookup t) r)))%nat with (0 + List.length (values (lookup t) r) + 1 * 2)%nat by lia. rewrite Nat.mod_add by lia. intuition congruence.
      * replace (0 + S (List.length (values (lookup t) r)))%nat with (1 + List.length (values (lookup t) r))%nat by lia. intuition congruence.
    + destruct (ws c) eqn:W; [rewrite IH; intuition|]. split; [easy|]. intros [[_ H] _]. specialize (H eq_refl). congruence.
Qed.
End D16.
Lemma decode16 strict ws s :
  (strict = false \/ well_formed16 (value16 strict) ws s -> base16_decode strict ws s = Ok (bytes16 (values (value16 strict) s))) /\
  (strict = true -> ~ well_formed16 (value16 strict) ws s -> base16_decode strict ws s = Err).
Proof.
  unfold base16_decode. set (t := if strict then base16_decode_table else base16lax_decode_table).
  assert (Ht : forall c, lookup t c = value16 strict c) by (intros c; unfold t, value16; destruct strict; [apply b16_lookup|apply b16lax_lookup]).
  rewrite (proj1 (d16_spec t strict ws s)), (values_ext (lookup t) _ _ Ht).
  assert (W : wrong16 t ws false s = false <-> well_formed16 (value16 strict) ws s).
  { rewrite (wrong16_spec t strict ws). unfold well_formed16, no_noise. cbn [Nat.add]. rewrite (values_ext (lookup t) _ _ Ht).
    split; intros [A B]; (split; [|exact B]); intros c; [rewrite <- Ht|rewrite Ht]; apply A. }
  unfold outcome. split.
  - intros [E|H]; [rewrite E; reflexivity|]. apply (proj2 W) in H. rewrite H, andb_false_r. reflexivity.
  - intros -> H. destruct (wrong16 t ws false s); [reflexivity|]. exfalso; apply H, (proj1 W). reflexivity.
Qed.
Lemma digit16 strict lc v : (strict = true -> lc = false) -> 0 <= v < 16 -> value16 strict (digit (alpha16_of lc) v) = Some v.
Proof.
  intros H Hv. destruct strict, lc; try (specialize (H eq_refl); discriminate).
  - apply (by_rangeo 16 (fun v => value16 true (digit (alpha16_of false) v)) Some); [vm_compute; reflexivity|lia].
  - apply (by_rangeo 16 (fun v => value16 false (digit (alpha16_of true) v)) Some); [vm_compute; reflexivity|lia].
  - apply (by_rangeo 16 (fun v => value16 false (digit (alpha16_of false) v)) Some); [vm_compute; reflexivity|lia].
Qed.
Lemma bytes16_one b l : is_byte b -> bytes16 (to_base 16 2 b ++ l) = b :: bytes16 l.
Proof. intros H. unfold is_byte in H. cbn [to_base app bytes16]. f_equal. basen. lia. Qed.
Lemma round16 lc strict ws bs : Forall is_byte bs -> (strict = true -> lc = false) -> base16_decode strict ws (base16_encode lc bs) = Ok bs.
Proof.
  intros Hb Hs. rewrite encode16 by assumption.
  assert (V : values (value16 strict) (rfc16 (alpha16_of lc) bs) = flat_map (to_base 16 2) bs /\ no_noise (value16 strict) ws (rfc16 (alpha16_of lc) bs)).
  { unfold rfc16. induction bs as [|b r IH]; [split; [reflexivity|intros ? []]|]. inversion_clear Hb. destruct (IH H0) as [A B].
    cbn [flat_map]. rewrite values_app, A. split.
    - f_equal. cbn [to_base map]. rewrite !values_cons, !digit16 by (assumption || apply Z.mod_pos_bound; lia). reflexivity.
    - intros c Hc E. apply in_app_or in Hc as [Hc|Hc]; [|now apply B].
      apply in_map_iff in Hc as (v & <- & Hv). rewrite digit16 in E; [discriminate|assumption|]. eapply in_to_base; [|exact Hv]. lia. }
  destruct V as [V N].
  rewrite (proj1 (decode16 strict ws _)).
  - f_equal. rewrite V. clear V N. induction Hb as [|b r H _ IH]; [reflexivity|]. change (flat_map (to_base 16 2) (b :: r)) with (to_base 16 2 b ++ flat_map (to_base 16 2) r).
    rewrite bytes16_one by assumption. now rewrite IH.
  - destruct strict; [right|now left]. split; [assumption|]. rewrite V. clear. induction bs as [|b r IH]; [reflexivity|].
    change (flat_map (to_base 16 2) (b :: r)) with (to_base 16 2 b ++ flat_map (to_base 16 2) r). rewrite app_length. change (List.length (to_base 16 2 b)) with 2%nat. cbn [Nat.add]. replace (S (S (List.length (flat_map (to_base 16 2) r)))) with (List.length (flat_map (to_base 16 2) r) + 1 * 2)%nat by lia.
    rewrite Nat.mod_add by lia. exact IH.
Qed.
