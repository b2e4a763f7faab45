(** C01: UTF-8 codec.  C02 (stepping). *)
From Coq Require Import ZArith List.
From Verif Require Import Utf8Model Utf8Spec Utf8Proofs StringProofs.
Import ListNotations.
Local Open Scope Z_scope.

(** What is stored for a character is its (unique, shortest) UTF-8 encoding. *)
Theorem utf8_put_is_shortest_encoding : forall c, valid_char c -> utf8_encodes c (char_put c).
Proof. exact putc_encodes. Qed.
Print Assumptions utf8_put_is_shortest_encoding.

(** Reading back what was written gives the character, whatever follows. *)
Theorem utf8_get_put : forall c rest, valid_char c -> char_get (char_put c ++ rest) = Ch c.
Proof. exact char_get_putc. Qed.
Print Assumptions utf8_get_put.

(** A decoder that accepts accepts only the shortest encoding. *)
Theorem utf8_get_sound : forall bs c, Forall is_byte bs -> char_get bs = Ch c ->
  valid_char c /\ exists enc rest, bs = enc ++ rest /\ utf8_encodes c enc.
Proof.
  intros bs c Hb H. rewrite char_get_getc in H by assumption.
  destruct (getc_sound bs c Hb H) as (Hv & rest & ->). split; [exact Hv|].
  exists (utf8_putc c), rest. split; [reflexivity|].
  rewrite <- char_put_putc by (destruct Hv; assumption). apply putc_encodes; assumption.
Qed.
Print Assumptions utf8_get_sound.

(** Sizes advertised by SCM_CHAR_NBYTES and by the first byte agree with the bytes. *)
Theorem utf8_sizes : forall c, valid_char c ->
  Z.of_nat (length (char_put c)) = nbytes c
  /\ exists b bs, char_put c = b :: bs /\ nfollows b = Z.of_nat (length bs).
Proof.
  intros c Hc. rewrite char_put_putc by (destruct Hc; assumption). split; [apply putc_length; assumption|].
  destruct (nfollows_putc c Hc) as (b & bs & H1 & _ & H2 & _). eauto.
Qed.
Print Assumptions utf8_sizes.

(** The decoder never looks beyond the bytes the first byte announces. *)
Theorem utf8_get_in_bounds : forall b p, is_byte b -> nfollows b <= Z.of_nat (length p) ->
  utf8_getc (b :: p) <> Oob.
Proof. exact getc_no_oob. Qed.
Print Assumptions utf8_get_in_bounds.

(** Stepping back from just after a character, at any place in a string, lands on
    its first byte. *)
Theorem utf8_backward_step : forall pre c extra, Forall valid_char pre -> valid_char c ->
  let before := concat (map char_put pre) in
  char_backward (before ++ char_put c ++ extra) (length before + length (char_put c))
  = Back (length before).
Proof. exact backward_enc. Qed.
Print Assumptions utf8_backward_step.

(** SCM_CHAR_BACKWARD at the very start of the buffer reads before it
    (the [switch] sends distance 0 to [default]): a finding; see DESIGN.md. *)
Theorem utf8_backward_at_start_refuted : forall buf, char_backward buf 0 = BOob.
Proof. intros buf; reflexivity. Qed.
Print Assumptions utf8_backward_at_start_refuted.

Example utf8_example_valid : valid_char 0x1F600 /\ char_put 0x1F600 = [0xF0; 0x9F; 0x98; 0x80].
Proof. split; [split; [discriminate|reflexivity]|reflexivity]. Qed.
Example utf8_example_overlong : char_get [0xC0; 0x80] = Invalid.
Proof. reflexivity. Qed.
Example utf8_example_max : valid_char (2 ^ 31 - 1) /\ char_get (char_put (2 ^ 31 - 1)) = Ch (2 ^ 31 - 1).
Proof. split; [split; [discriminate|reflexivity]|vm_compute; reflexivity]. Qed.
