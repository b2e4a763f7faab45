(** C24: quoted-printable (lib/rfc/quoted-printable.scm). *)
From Coq Require Import List Bool ZArith Lia.
From Verif Require Import Outcome QpModel QpSpec QpProofs.
Import ListNotations.
Local Open Scope Z_scope.

(** The decoder computes what quoted-printable text stands for. *)
Theorem qp_decode_correct : forall s bs, qp_means s bs -> qp_decode s = Ok bs.
Proof. exact decode_means. Qed.
(** In binary mode the encoder writes quoted-printable text standing for its input, and the decoder
    restores it. *)
Theorem qp_encode_binary : forall line_width bs, Forall is_byte bs ->
  exists s, qp_encode line_width true bs = Ok s /\ qp_means s bs.
Proof. intros. now apply encode_binary. Qed.
Theorem qp_round_trip_binary : forall line_width bs, Forall is_byte bs ->
  bind (qp_encode line_width true bs) qp_decode = Ok bs.
Proof. intros lw bs H. destruct (qp_encode_binary lw bs H) as (s & -> & M). apply decode_means, M. Qed.
(** In text mode line ends become CR LF and everything else is restored, unless the text ends with
    a carriage return. *)
Theorem qp_encode_text_partial : forall line_width bs, Forall is_byte bs -> ~ ends_with_cr bs ->
  exists s, qp_encode line_width false bs = Ok s /\ qp_means s (crlf bs).
Proof. intros. now apply encode_text. Qed.
Theorem qp_round_trip_text_partial : forall line_width bs, Forall is_byte bs -> ~ ends_with_cr bs ->
  bind (qp_encode line_width false bs) qp_decode = Ok (crlf bs).
Proof. intros lw bs H N. destruct (qp_encode_text_partial lw bs H N) as (s & -> & M). apply decode_means, M. Qed.
Theorem qp_trailing_cr_refuted : qp_encode (Some 76) false [65; 13] = Err.
Proof. reflexivity. Qed.
(** Lines respect the width (CR LF not counted) in text mode, and in binary mode if there is no line
    end in the data. *)
Theorem qp_lines_partial : forall w binary bs s, 4 <= w -> Forall is_byte bs -> (binary = true -> forall c, In c bs -> c <> 10 /\ c <> 13) ->
  qp_encode (Some w) binary bs = Ok s -> lines_within w 0 s.
Proof.
  intros w b bs s Hw Hb Hn. unfold qp_encode, limit_of. rewrite (proj2 (Z.leb_le 4 w)) by assumption.
  apply encode_lines; try assumption; lia.
Qed.
(** In binary mode an escaped line end counts as one column: 76 of them make a line of 220. *)
Theorem qp_binary_lines_refuted : exists bs s, Forall is_byte bs /\ qp_encode (Some 76) true bs = Ok s /\ ~ lines_within 76 0 s /\ ~ lines_within 218 0 s.
Proof.
  exists (repeat 10 76). eexists. split; [apply Forall_forall; intros x Hx; apply repeat_spec in Hx; unfold is_byte; lia|].
  split; [vm_compute; reflexivity|].
  assert (A : forall w l u s, Forall (fun c => c <> 13) l -> lines_within w u (l ++ s) -> u + Z.of_nat (List.length l) <= w \/ l = []).
  { intros w l. induction l as [|c r IH]; intros u s F H; [now right|]. left. inversion_clear F.
    assert (u < w /\ lines_within w (u + 1) (r ++ s)) as [H2 H3].
    { cbn [app lines_within] in H. destruct c as [|p|p]; try exact H. do 4 (destruct p as [p|p|]; try exact H). congruence. }
    destruct (IH (u + 1) s H1 H3) as [K| ->]; cbn [List.length]; lia. }
  assert (B : forall w, lines_within w 0 (concat (repeat [61; 48; 65] 73) ++ [61; 13; 10] ++ concat (repeat [61; 48; 65] 3)) -> 219 <= w).
  { intros w H. destruct (A w (concat (repeat [61; 48; 65] 73)) 0 _ ltac:(repeat constructor; discriminate) H) as [K|K]; [|discriminate].
    vm_compute (List.length _) in K. lia. }
  split; intros H; apply B in H; lia.
Qed.
(** Malformed input: "=" CR at the end is an error. *)
Theorem qp_decode_trailing_cr_refuted : qp_decode [65; 61; 13] = Err.
Proof. reflexivity. Qed.

Example qp_run : qp_encode (Some 10) false [72; 195; 169; 32; 61; 10; 65; 66; 67; 68; 69; 70; 71; 72; 73; 74] =
  Ok [72; 61; 67; 51; 61; 65; 57; 61; 13; 10; 61; 50; 48; 61; 51; 68; 13; 10; 65; 66; 67; 68; 69; 70; 71; 61; 13; 10; 72; 73; 74].
Proof. vm_compute. reflexivity. Qed.
Example qp_run_binary : bind (qp_encode (Some 4) true [10; 13; 61; 32; 255; 65]) qp_decode = Ok [10; 13; 61; 32; 255; 65].
Proof. vm_compute. reflexivity. Qed.
Example qp_run_text : bind (qp_encode (Some 4) false [10; 65; 13; 66; 13; 10]) qp_decode = Ok [13; 10; 65; 13; 10; 66; 13; 10].
Proof. vm_compute. reflexivity. Qed.

Print Assumptions qp_decode_correct.
Print Assumptions qp_encode_binary.
Print Assumptions qp_round_trip_binary.
Print Assumptions qp_encode_text_partial.
Print Assumptions qp_round_trip_text_partial.
Print Assumptions qp_trailing_cr_refuted.
Print Assumptions qp_lines_partial.
Print Assumptions qp_binary_lines_refuted.
Print Assumptions qp_decode_trailing_cr_refuted.
