(** C23: RFC 4648 encodings (lib/rfc/base64.scm). *)
From Coq Require Import String List Bool ZArith Lia.
From Verif Require Import Outcome Base64Model Base64Spec Base64Proofs Base64Round.
Import ListNotations.
Local Open Scope Z_scope.

(** The digits an option selects, and the value the decoder gives to a character; [usable] and
    [distinct_digits] constrain the :digits option only. *)
Lemma alpha_of_eq : alpha_of Standard = alphabet64 /\ alpha_of UrlSafe = alphabet64url /\ forall d0 d1, alpha_of (Digits d0 d1) = alnum64 ++ [d0; d1].
Proof. repeat split. Qed.

(** base64-encode is RFC 4648 section 4 / 5, broken into lines. *)
Theorem base64_encode_is_rfc4648 : forall a line_width omit_padding bs, usable a -> Forall is_byte bs ->
  base64_encode a line_width omit_padding bs = Ok (wrapped line_width (rfc64 (alpha_of a) (negb omit_padding) bs)).
Proof. exact encode64. Qed.
(** base64-decode on any text: the digits before the first pad, everything else skipped; in strict
    mode an error if there is other noise than whitespace, or an incomplete group without pad. *)
Theorem base64_decode_lax : forall a whitespace s, usable a ->
  base64_decode a false whitespace s = Ok (bytes64 (values (value_of a) (before_pad s))).
Proof. intros a ws s H. apply (decode64 a false ws s H). now left. Qed.
Theorem base64_decode_strict : forall a whitespace s, usable a ->
  (well_formed 4 (value_of a) whitespace s -> base64_decode a true whitespace s = Ok (bytes64 (values (value_of a) (before_pad s)))) /\
  (~ well_formed 4 (value_of a) whitespace s -> base64_decode a true whitespace s = Err).
Proof. intros a ws s H. destruct (decode64 a true ws s H) as [A B]. split; [intros; apply A; now right|now apply B]. Qed.
(** C23 *)
Theorem base64_round_trip : forall a line_width omit_padding strict whitespace bs,
  usable a -> distinct_digits a -> Forall is_byte bs -> whitespace 10 = true ->
  (strict = true -> omit_padding = true -> (List.length bs mod 3 = 0)%nat) ->
  bind (base64_encode a line_width omit_padding bs) (base64_decode a strict whitespace) = Ok bs.
Proof. exact round64. Qed.
(** two byte strings with the same encoding are equal *)
Theorem base64_encode_injective : forall a line_width omit_padding bs bs' s,
  usable a -> distinct_digits a -> Forall is_byte bs -> Forall is_byte bs' ->
  base64_encode a line_width omit_padding bs = Ok s -> base64_encode a line_width omit_padding bs' = Ok s -> bs = bs'.
Proof.
  intros a lw o bs bs' s Ha Hd B B' E E'.
  pose proof (base64_round_trip a lw o false (fun _ => true) bs Ha Hd B eq_refl ltac:(discriminate)) as R.
  pose proof (base64_round_trip a lw o false (fun _ => true) bs' Ha Hd B' eq_refl ltac:(discriminate)) as R'.
  rewrite E in R. rewrite E' in R'. cbn [bind] in *. congruence.
Qed.
(** No line of the output is longer than the line width; every character is a digit, a pad or a newline. *)
Theorem base64_lines : forall a w omit_padding bs s, usable a -> Forall is_byte bs -> 0 < w ->
  base64_encode a (Some w) omit_padding bs = Ok s -> lines_within w 0 s.
Proof.
  intros a w o bs s Ha Hb Hw. rewrite encode64 by assumption. intros [= <-]. cbn [wrapped].
  rewrite (proj2 (Z.ltb_lt 0 w)) by assumption. replace 0 with (w - w) at 1 by lia. apply lines_break; [assumption| |lia].
  rewrite rfc64_split. intros Hi. apply in_app_or in Hi as [Hi|Hi].
  - apply in_map_iff in Hi as (v & E & Hv). apply idx64_range in Hv.
    destruct a as [| |d0 d1]; cbn [alpha_of] in E.
    + assert (In 10 alphabet64) by (rewrite <- E; unfold digit; apply nth_In; cbn; lia). vm_compute in H. intuition congruence.
    + assert (In 10 alphabet64url) by (rewrite <- E; unfold digit; apply nth_In; cbn; lia). vm_compute in H. intuition congruence.
    + destruct Ha as [[R0 _] [R1 _]]. assert (In 10 (alnum64 ++ [d0; d1])) by (rewrite <- E; unfold digit; apply nth_In; cbn; lia).
      apply in_app_or in H as [H|[H|[H|[]]]]; [vm_compute in H; intuition congruence|lia|lia].
  - destruct (negb o); [|destruct Hi]. clear -Hi. revert Hi. induction bs as [|x|x y|x y z r IH] using list3_ind; cbn [pads64 In]; unfold pad; intuition lia.
Qed.
(** The premises of the round trip cannot be dropped.  A space digit is skipped by the decoder; two
    equal digits are confused; for a control character the decoder fails; a strict decoder rejects
    unpadded text. *)
Theorem base64_space_digit_refuted : bind (base64_encode (Digits 32 47) None false [248; 1; 2]) (base64_decode (Digits 32 47) false (fun _ => true)) <> Ok [248; 1; 2].
Proof. vm_compute. discriminate. Qed.
Theorem base64_equal_digits_refuted : bind (base64_encode (Digits 33 33) None false [248; 1; 2]) (base64_decode (Digits 33 33) false (fun _ => true)) = Ok [252; 1; 2].
Proof. vm_compute. reflexivity. Qed.
Theorem base64_control_digit_refuted : valid_digit 9 = true /\ (exists s, base64_encode (Digits 9 47) None false [248; 1; 2] = Ok s) /\ base64_decode (Digits 9 47) false (fun _ => true) [] = Err.
Proof. split; [reflexivity|]. split; [eexists|]; vm_compute; reflexivity. Qed.
Theorem base64_strict_unpadded_refuted : bind (base64_encode Standard None true [1]) (base64_decode Standard true (fun _ => true)) = Err.
Proof. vm_compute. reflexivity. Qed.
(** The strict decoder accepts a pad anywhere: a lone first digit is dropped, and text after the pad
    is ignored ("TWFu=!!!!"). *)
Theorem base64_strict_pad_refuted :
  base64_decode Standard true (fun _ => false) (codes "TQ===="%string) = Ok [77] /\
  base64_decode Standard true (fun _ => false) (codes "TWFuT="%string) = Ok [77; 97; 110] /\
  base64_decode Standard true (fun _ => false) (codes "TWFu=!!!!"%string) = Ok [77; 97; 110].
Proof. repeat split; vm_compute; reflexivity. Qed.

(** base32-encode, base32hex-encode: RFC 4648 sections 6 and 7. *)
Theorem base32_encode_is_rfc4648 : forall hex line_width omit_padding bs, Forall is_byte bs ->
  base32_encode hex line_width omit_padding bs = wrapped line_width (rfc32 (if hex then alphabet32hex else alphabet32) (negb omit_padding) bs).
Proof. exact encode32. Qed.
Theorem base32_decode_lax_partial : forall (hex : bool) whitespace s, no_noise_before_last (value (if hex then alphabet32hex else alphabet32)) s ->
  base32_decode hex false whitespace s = Ok (bytes32 (values (value (if hex then alphabet32hex else alphabet32)) (before_pad s))).
Proof. intros hex ws s H. apply (decode32 hex false ws s H). now left. Qed.
Theorem base32_decode_strict_partial : forall (hex : bool) whitespace s, no_noise_before_last (value (if hex then alphabet32hex else alphabet32)) s ->
  (well_formed 8 (value (if hex then alphabet32hex else alphabet32)) whitespace s ->
     base32_decode hex true whitespace s = Ok (bytes32 (values (value (if hex then alphabet32hex else alphabet32)) (before_pad s)))) /\
  (~ well_formed 8 (value (if hex then alphabet32hex else alphabet32)) whitespace s -> base32_decode hex true whitespace s = Err).
Proof. intros hex ws s H. destruct (decode32 hex true ws s H) as [A B]. split; [intros; apply A; now right|now apply B]. Qed.
(** The round trip holds without line breaks or for an even width (the default is 76). *)
Theorem base32_round_trip_partial : forall hex line_width omit_padding strict whitespace bs,
  Forall is_byte bs -> whitespace 10 = true ->
  (strict = true -> omit_padding = true -> (List.length bs mod 5 = 0)%nat) ->
  (forall w, line_width = Some w -> 0 < w -> Z.even w = true) ->
  base32_decode hex strict whitespace (base32_encode hex line_width omit_padding bs) = Ok bs.
Proof. exact round32. Qed.
(** For width 7 the decoder loops forever at the newline before the eighth digit. *)
Theorem base32_odd_width_refuted : base32_decode false false (fun _ => true) (base32_encode false (Some 7) false [1; 2; 3; 4; 5]) = UB.
Proof. vm_compute. reflexivity. Qed.

Theorem base16_encode_is_rfc4648 : forall lowercase bs, Forall is_byte bs ->
  base16_encode lowercase bs = rfc16 (if lowercase then alphabet16lc else alphabet16) bs.
Proof. exact encode16. Qed.
Theorem base16_decode_lax : forall whitespace s, base16_decode false whitespace s = Ok (bytes16 (values value16lax s)).
Proof. intros ws s. apply (decode16 false ws s). now left. Qed.
Theorem base16_decode_strict : forall whitespace s,
  (no_noise (value alphabet16) whitespace s /\ (List.length (values (value alphabet16) s) mod 2 = 0)%nat ->
    base16_decode true whitespace s = Ok (bytes16 (values (value alphabet16) s))) /\
  (~ (no_noise (value alphabet16) whitespace s /\ (List.length (values (value alphabet16) s) mod 2 = 0)%nat) ->
    base16_decode true whitespace s = Err).
Proof. intros ws s. destruct (decode16 true ws s) as [A B]. split; [intros; apply A; now right|now apply B]. Qed.
Theorem base16_round_trip : forall lowercase strict whitespace bs, Forall is_byte bs -> (strict = true -> lowercase = false) ->
  base16_decode strict whitespace (base16_encode lowercase bs) = Ok bs.
Proof. exact round16. Qed.

(** RFC 4648 section 10 and the hypotheses *)
Example rfc_vectors :
  base64_encode Standard (Some 76) false (codes "foobar"%string) = Ok (codes "Zm9vYmFy"%string) /\
  base64_encode Standard (Some 76) false (codes "fooba"%string) = Ok (codes "Zm9vYmE="%string) /\
  base64_encode UrlSafe None true [251; 255] = Ok (codes "-_8"%string) /\
  base32_encode false (Some 76) false (codes "foob"%string) = codes "MZXW6YQ="%string /\
  base32_encode true (Some 76) false (codes "foo"%string) = codes "CPNMU==="%string /\
  base16_encode false (codes "foobar"%string) = codes "666F6F626172"%string.
Proof. vm_compute. repeat split; reflexivity. Qed.
Example custom_digits_usable : usable (Digits 46 126) /\ distinct_digits (Digits 46 126).
Proof. split; [split; (split; [lia|split; [vm_compute; intuition congruence|discriminate]])|discriminate]. Qed.
Example round_trip_run : bind (base64_encode (Digits 46 126) (Some 3) false [251; 255; 1; 0; 9]) (base64_decode (Digits 46 126) true (fun c => c =? 10)) = Ok [251; 255; 1; 0; 9].
Proof. vm_compute. reflexivity. Qed.
Example decode_noise : base64_decode Standard false (fun c => c =? 32) (codes "Z m9*vYm E"%string) = Ok (codes "fooba"%string).
Proof. vm_compute. reflexivity. Qed.

Print Assumptions base64_encode_is_rfc4648.
Print Assumptions base64_decode_lax.
Print Assumptions base64_decode_strict.
Print Assumptions base64_round_trip.
Print Assumptions base64_encode_injective.
Print Assumptions base64_lines.
Print Assumptions base64_space_digit_refuted.
Print Assumptions base64_equal_digits_refuted.
Print Assumptions base64_control_digit_refuted.
Print Assumptions base64_strict_unpadded_refuted.
Print Assumptions base64_strict_pad_refuted.
Print Assumptions base32_encode_is_rfc4648.
Print Assumptions base32_decode_lax_partial.
Print Assumptions base32_decode_strict_partial.
Print Assumptions base32_round_trip_partial.
Print Assumptions base32_odd_width_refuted.
Print Assumptions base16_encode_is_rfc4648.
Print Assumptions base16_decode_lax.
Print Assumptions base16_decode_strict.
Print Assumptions base16_round_trip.
