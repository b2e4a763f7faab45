(** C37, C38: what is written to a port. *)
From Coq Require Import ZArith List Bool Lia.
From Verif Require Import Outcome Utf8Model Utf8Spec Utf8Proofs StringModel StringSpec StringProofs PortModel OutModel OutSpec OutProofs OutProofs2 OutProofs3.
Import ListNotations.
Local Open Scope nat_scope.
Ltac Zify.zify_post_hook ::= idtac.

(** ** C37: file ports *)
(** Every answer, and after every operation what others see of the file, is right, whatever
    the file, the buffer size, the buffering mode and the share of each request write(2)
    takes ([full] = it always takes everything): up to the end, or the first operation that
    is not [wallowed], or an assertion that [may_abort] permits. *)
Theorem output_port_contents_partial : forall f size m oracle full ops, 1 <= size -> (full = true -> forall n, size <= oracle n) ->
  wconforms full (6 <=? size) (mkW f 0 [] 0 0 m false) ops (out_run (open_out f size m oracle) ops).
Proof. intros. apply (out_run_ok size) with (oracle := oracle); auto. now apply open_out_inv. Qed.

(** The bytes an operation writes (fresh-line left out) *)
Definition op_bytes (o : oop) : list Z :=
  match o with WriteByte b => [b] | WriteChar c => char_put c | WriteString cs => concat (map char_put cs) | WriteBytes bs => bs | _ => [] end.
Definition writes (o : oop) : Prop :=
  match o with
  | WriteByte b => is_byte b | WriteChar c => valid_char c | WriteString cs => Forall valid_char cs | WriteBytes bs => Forall is_byte bs
  | Flush | SetMode _ | OTell | Column => True | _ => False end.
Definition all_bytes (ops : list oop) : list Z := concat (map op_bytes ops).
Lemma all_bytes_app a b : all_bytes (a ++ b) = all_bytes a ++ all_bytes b. Proof. unfold all_bytes. now rewrite map_app, concat_app. Qed.
Lemma all_bytes_one o : all_bytes [o] = op_bytes o. Proof. unfold all_bytes. cbn [map concat]. apply app_nil_r. Qed.
Lemma visible_nil s : w_base s = [] -> w_start s = 0 -> w_visible s = firstn (w_shown s) (w_written s).
Proof. intros E1 E2. unfold w_visible, overlay. rewrite E1, E2. destruct (firstn (w_shown s) (w_written s)); [reflexivity|]. cbn [firstn app]. now rewrite skipn_nil, app_nil_r. Qed.
Lemma writes_session : forall full roomy ops s rs done, wconforms full roomy s ops rs -> Forall writes ops -> w_base s = [] -> w_start s = 0 -> w_closed s = false -> w_written s = all_bytes done ->
  forall i o a vis, nth_error ops i = Some o -> nth_error rs i = Some (Ok (a, vis)) ->
  (exists k, vis = firstn k (all_bytes (done ++ firstn (S i) ops))) /\ (o = Flush -> vis = all_bytes (done ++ firstn (S i) ops)) /\ (o = OTell -> a = OPos (Z.of_nat (length (all_bytes (done ++ firstn (S i) ops))))).
Proof.
  intros full roomy. induction ops as [|o1 ops IH]; intros s rs done C F B S0 Cl W i o a vis Ho Hr; [now destruct i|].
  inversion F as [|? ? F1 F2]; subst. cbn [wconforms] in C.
  assert (Al : wallowed s o1) by (split; auto; destruct o1; auto). specialize (C Al).
  destruct rs as [|r rs]; [contradiction|]. destruct r as [[a1 v1]| | |]; [|contradiction|destruct rs; [|contradiction]; destruct i as [|[|]]; discriminate|contradiction].
  destruct C as (s' & St & Ev & C).
  assert (N : w_base s' = [] /\ w_start s' = 0 /\ w_closed s' = false /\ w_written s' = all_bytes (done ++ [o1]) /\ (o1 = Flush -> w_shown s' = length (w_written s')) /\ (o1 = OTell -> a1 = OPos (Z.of_nat (length (all_bytes (done ++ [o1])))))).
  { rewrite all_bytes_app, all_bytes_one, <- W. clear - F1 St B S0 Cl. destruct o1; try contradiction; inversion St; subst; cbn [wrote synced w_base w_start w_closed w_written w_shown op_bytes]; repeat rewrite app_nil_r; (split; [auto|]); (split; [auto|]); (split; [auto|]); (split; [|split; [try discriminate; auto|try discriminate]]); auto.
    - match goal with H : utf8_encodes _ _ |- _ => rewrite (encodes_unique _ _ _ H (putc_encodes c F1)) end. reflexivity.
    - match goal with H : encodes_all _ _ |- _ => apply bytes_of_all in H as (_ & ->) end. reflexivity.
    - intros _. unfold w_pos. now rewrite S0. }
  destruct N as (N1 & N2 & N3 & N4 & N5 & N6). destruct i as [|i]; cbn [nth_error] in Ho, Hr.
  - injection Ho as <-. injection Hr as <- <-. cbn [firstn]. rewrite Ev, visible_nil, N4 by auto. split; [eauto|]. split; [|exact N6]. intros E. rewrite (N5 E), N4. apply firstn_all.
  - change (firstn (Datatypes.S (Datatypes.S i)) (o1 :: ops)) with (o1 :: firstn (Datatypes.S i) ops). replace (done ++ o1 :: firstn (Datatypes.S i) ops) with ((done ++ [o1]) ++ firstn (Datatypes.S i) ops) by (now rewrite <- app_assoc). eapply IH; eassumption.
Qed.
(** Whatever has been written to a new file, at any time others see a prefix of it; after a
    flush, all of it; and port-tell tells how much. *)
Theorem written_prefix_visible : forall size m oracle ops i o a vis, 1 <= size -> Forall writes ops ->
  nth_error ops i = Some o -> nth_error (out_run (open_out [] size m oracle) ops) i = Some (Ok (a, vis)) ->
  (exists k, vis = firstn k (concat (map op_bytes (firstn (S i) ops)))) /\
  (o = Flush -> vis = concat (map op_bytes (firstn (S i) ops))) /\
  (o = OTell -> a = OPos (Z.of_nat (length (concat (map op_bytes (firstn (S i) ops)))))).
Proof.
  intros size m oracle ops i o a vis Hs F Ho Hr.
  pose proof (output_port_contents_partial [] size m oracle false ops Hs ltac:(discriminate)) as C.
  apply (writes_session _ _ ops _ _ [] C F eq_refl eq_refl eq_refl eq_refl i o a vis Ho Hr).
Qed.
Lemma session_total : forall roomy ops s rs, wconforms true roomy s ops rs -> roomy = true -> Forall writes ops -> w_closed s = false ->
  forall i, i < length ops -> exists a vis, nth_error rs i = Some (Ok (a, vis)).
Proof.
  intros roomy. induction ops as [|o1 ops IH]; intros s rs C R F Cl i Hi; [cbn in Hi; lia|]. inversion F as [|? ? F1 F2]; subst. cbn [wconforms] in C.
  assert (Al : wallowed s o1) by (split; auto; destruct o1; auto). specialize (C Al).
  destruct rs as [|r rs]; [contradiction|]. destruct r as [[a1 v1]| | |]; [|contradiction| |contradiction].
  - destruct C as (s' & St & Ev & C). destruct i as [|i]; cbn [nth_error]; [eauto|]. apply (IH s' rs C eq_refl F2); [|cbn [length] in Hi; lia]. destruct o1; try contradiction; inversion St; subst; exact Cl.
  - destruct rs; [|contradiction]. destruct o1; cbn in C; try contradiction. destruct C as (_ & C). discriminate.
Qed.
(** If write(2) takes everything and the buffer holds a character, nothing fails. *)
Theorem no_failure : forall size m oracle ops i, 6 <= size -> (forall n, size <= oracle n) -> Forall writes ops -> i < length ops ->
  exists a vis, nth_error (out_run (open_out [] size m oracle) ops) i = Some (Ok (a, vis)).
Proof.
  intros size m oracle ops i Hs Ho F Hi. eapply session_total; try eassumption; [apply (output_port_contents_partial [] size m oracle true ops); [lia|auto]|now apply Nat.leb_le|reflexivity].
Qed.

(** Outside these conditions the assertion does fail: the flush before a character of two
    or more bytes may leave the buffer too full for it (portapi.c:206 and 209). *)
Theorem putc_assertion_refuted :
  out_run (open_out [] 6 BFull (fun _ => 1)) [WriteString [97; 97; 97; 97; 97; 97]%Z; WriteChar 955] = [Ok (OUnit, []); Panic].
Proof. reflexivity. Qed.
(** write-byte does not advance the column, so that fresh-line after it writes nothing and
    the byte is followed by no newline (portapi.c:175 against 231). *)
Theorem write_byte_column_refuted : forall size m, 1 <= size ->
  out_run (open_out [] size m (fun _ => size)) [WriteByte 97; FreshLine; Flush] =
  [Ok (OUnit, match m with BNone => [97%Z] | _ => [] end); Ok (OFalse, match m with BNone => [97%Z] | _ => [] end); Ok (OUnit, [97%Z])].
Proof.
  intros size m Hs. destruct size as [|[|size]]; [lia| |]; destruct m; reflexivity.
Qed.
(** In mode :line, a newline written by write-byte is not flushed. *)
Theorem write_byte_line_refuted :
  out_run (open_out [] 8 BLine (fun _ => 8)) [WriteByte 97; WriteByte 10] = [Ok (OUnit, []); Ok (OUnit, [])] /\
  out_run (open_out [] 8 BLine (fun _ => 8)) [WriteByte 97; WriteChar 10] = [Ok (OUnit, []); Ok (OUnit, [97%Z; 10%Z])].
Proof. split; reflexivity. Qed.

(** *** Examples *)
(** writes that are split by the buffer and by write(2), positions, and a seek back *)
Example session_ex :
  out_run (open_out [1; 2; 3; 4; 5; 6; 7; 8; 9; 10]%Z 4 BFull (fun _ => 3))
    [WriteString [97; 955; 98]%Z; OTell; WriteBytes [120; 121]%Z; Flush; OSeek 1 SeekSet; WriteByte 122; OSeek (-2) SeekEnd; WriteChar 113; Column; FreshLine; Close] =
  [Ok (OUnit, [1; 2; 3; 4; 5; 6; 7; 8; 9; 10]%Z); Ok (OPos 4, [1; 2; 3; 4; 5; 6; 7; 8; 9; 10]%Z); Ok (OUnit, [97; 206; 187; 4; 5; 6; 7; 8; 9; 10]%Z);
   Ok (OUnit, [97; 206; 187; 98; 120; 121; 7; 8; 9; 10]%Z); Ok (OPos 1, [97; 206; 187; 98; 120; 121; 7; 8; 9; 10]%Z); Ok (OUnit, [97; 206; 187; 98; 120; 121; 7; 8; 9; 10]%Z);
   Ok (OPos 8, [97; 122; 187; 98; 120; 121; 7; 8; 9; 10]%Z); Ok (OUnit, [97; 122; 187; 98; 120; 121; 7; 8; 9; 10]%Z); Ok (OPos 6, [97; 122; 187; 98; 120; 121; 7; 8; 9; 10]%Z);
   Ok (OTrue, [97; 122; 187; 98; 120; 121; 7; 8; 9; 10]%Z); Ok (OUnit, [97; 122; 187; 98; 120; 121; 7; 8; 113; 10]%Z)].
Proof. vm_compute. reflexivity. Qed.
Example writes_ex : Forall writes [WriteString [97; 955]%Z; WriteChar 8364; SetMode BLine; WriteBytes [0; 255]%Z; WriteByte 10; OTell; Flush].
Proof. repeat constructor; unfold is_byte; try lia; cbn; lia. Qed.

(** ** C38: string ports and dynamic strings *)
(** Whatever is written, get-output-string is the bytes written in order, as a string of the
    characters they encode (an incomplete string if they encode none), and port-tell is their
    number.  Nothing fails: in particular no store leaves its chunk. *)
Theorem string_port_contents : forall ops, sconforms [] ops (str_run dstr_init ops).
Proof. intros. apply str_run_ok, dinv_init. Qed.
(** The same said of the last of a series of operations *)
Definition sop_bytes (o : sop) : list Z :=
  match o with SByte b => [b] | SChar c => char_put c | SString cs => concat (map char_put cs) | SBytes bs => bs | _ => [] end.
Lemma sconforms_last : forall ops bs rs, sconforms bs (ops ++ [SGet]) rs -> Forall sallowed ops ->
  exists len, nth_error rs (length ops) = Some (Ok (SStr (bs ++ concat (map sop_bytes ops)) len)) /\
    (forall cs, encodes_all cs (bs ++ concat (map sop_bytes ops)) -> len = Some (length cs)) /\ ((forall cs, ~ encodes_all cs (bs ++ concat (map sop_bytes ops))) -> len = None).
Proof.
  induction ops as [|o ops IH]; intros bs rs C F.
  - cbn [app sconforms] in C. specialize (C Logic.I). cbn [map concat length nth_error]. rewrite app_nil_r. destruct rs as [|[a| | |] rs]; try contradiction. destruct C as (bs' & St & C). inversion St; subst; (eexists; split; [reflexivity|]); split; auto.
    + intros cs' E. f_equal. match goal with H : encodes_all ?cs bs' |- _ => apply bytes_of_all in H as (V1 & E1); apply bytes_of_all in E as (V2 & E2); rewrite E1 in E2 end.
      rewrite !bytes_of_enc in E2. pose proof (count_length_enc cs (S (length (enc cs))) [] V1 ltac:(lia)) as X1. pose proof (count_length_enc cs' (S (length (enc cs'))) [] V2 ltac:(lia)) as X2. rewrite app_nil_r in X1, X2. rewrite E2 in X1.
      rewrite bytes_of_enc in X1. rewrite X1 in X2. now injection X2.
    + intros N. exfalso. match goal with H : encodes_all ?cs bs' |- _ => now apply (N cs) end.
    + intros cs E. exfalso. match goal with H : forall cs, ~ _ |- _ => now apply (H cs) end.
  - inversion F as [|? ? F1 F2]; subst. cbn [app sconforms] in C. specialize (C F1). destruct rs as [|[a| | |] rs]; try contradiction. destruct C as (bs' & St & C). cbn [length nth_error map concat].
    destruct (IH bs' rs C F2) as (len & X). exists len. replace (bs ++ sop_bytes o ++ concat (map sop_bytes ops)) with (bs' ++ concat (map sop_bytes ops)); auto. rewrite app_assoc. f_equal.
    destruct o; inversion St; subst; cbn [sop_bytes]; rewrite ?app_nil_r; auto; f_equal.
    + match goal with H : utf8_encodes _ _ |- _ => apply (encodes_unique _ _ _ H), putc_encodes, F1 end.
    + match goal with H : encodes_all _ _ |- _ => apply bytes_of_all in H as (_ & ->) end. reflexivity.
Qed.
Theorem get_output_string : forall ops, Forall sallowed ops ->
  let bs := concat (map sop_bytes ops) in
  exists len, nth_error (str_run dstr_init (ops ++ [SGet])) (length ops) = Some (Ok (SStr bs len)) /\
    (forall cs, encodes_all cs bs -> len = Some (length cs)) /\ ((forall cs, ~ encodes_all cs bs) -> len = None).
Proof. intros ops F. apply (sconforms_last ops [] _ (string_port_contents _) F). Qed.

(** 40 bytes, so that a second chunk is used; then a lone lead byte makes it incomplete, and
    its continuation complete again *)
Example string_port_ex :
  str_run dstr_init [SString (repeat 955%Z 15); SBytes [97; 98; 99; 206; 187]%Z; STell; SChar 8364; SByte 206; SGet; SByte 187; SGet] =
  let bs := (concat (repeat [206; 187] 15) ++ [97; 98; 99; 206; 187; 226; 130; 172; 206])%Z in
  [Ok SUnit; Ok SUnit; Ok (SPos 35); Ok SUnit; Ok SUnit; Ok (SStr bs None); Ok SUnit; Ok (SStr (bs ++ [187%Z]) (Some 21))].
Proof. vm_compute. reflexivity. Qed.

Print Assumptions output_port_contents_partial.
Print Assumptions written_prefix_visible.
Print Assumptions no_failure.
Print Assumptions putc_assertion_refuted.
Print Assumptions write_byte_column_refuted.
Print Assumptions write_byte_line_refuted.
Print Assumptions string_port_contents.
Print Assumptions get_output_string.
