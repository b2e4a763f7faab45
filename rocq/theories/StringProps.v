(** C02: strings are sequences of characters. *)
From Coq Require Import ZArith List Lia.
From Verif Require Import Outcome Utf8Model Utf8Spec StringModel StringSpec StringProofs.
Import ListNotations.
Local Open Scope Z_scope.

(** string-ref returns the character at that position, an error outside. *)
Theorem string_ref_correct : forall b cs pos, holds b cs ->
  (forall c, 0 <= pos -> nth_error cs (Z.to_nat pos) = Some c -> string_ref b pos = Ok c)
  /\ (pos < 0 \/ Z.of_nat (length cs) <= pos -> string_ref b pos = Err).
Proof.
  intros b cs pos H. split.
  - intros c Hp Hn. rewrite (string_ref_holds b cs pos H).
    assert (Hl : (Z.to_nat pos < length cs)%nat) by (apply nth_error_Some; congruence).
    replace ((0 <=? pos) && (pos <? Z.of_nat (length cs)))%bool with true by
      (symmetry; apply andb_true_intro; split; [apply Z.leb_le|apply Z.ltb_lt]; lia).
    rewrite Hn. reflexivity.
  - intros Hp. rewrite (string_ref_holds b cs pos H).
    destruct (Z.leb_spec 0 pos); [|reflexivity]. destruct (Z.ltb_spec pos (Z.of_nat (length cs))); [lia|reflexivity].
Qed.
Print Assumptions string_ref_correct.

(** substring returns a string holding exactly that section.  The full statement
    has no hypothesis on [end_lookup_aborts]; it is false, see
    [string_substring_refuted].  Proved: everything except the case of an
    *indexed* string whose length is a positive multiple of the index interval
    when the end index equals the length. *)
Theorem string_substring_partial : forall b cs i j,
  holds b cs -> 0 <= i <= j -> j <= Z.of_nat (length cs) ->
  end_lookup_aborts b cs j = false ->
  exists b', scm_substring b i j = Ok b'
    /\ holds b' (firstn (Z.to_nat (j - i)) (skipn (Z.to_nat i) cs)).
Proof. exact scm_substring_holds. Qed.
Print Assumptions string_substring_partial.

(** For strings without an index the statement is complete. *)
Theorem string_substring_unindexed : forall b cs i j,
  holds b cs -> b_index b = None -> 0 <= i <= j -> j <= Z.of_nat (length cs) ->
  exists b', scm_substring b i j = Ok b'
    /\ holds b' (firstn (Z.to_nat (j - i)) (skipn (Z.to_nat i) cs)).
Proof.
  intros b cs i j H Hn Hi Hj. apply scm_substring_holds; try assumption.
  unfold end_lookup_aborts. rewrite Hn. reflexivity.
Qed.
Print Assumptions string_substring_unindexed.

Theorem string_append_correct : forall x y cs ds, holds x cs -> holds y ds ->
  Z.of_nat (b_size x + b_size y) < 2 ^ 61 ->
  exists z, string_append2 x y = Ok z /\ holds z (cs ++ ds).
Proof. exact append_holds. Qed.
Print Assumptions string_append_correct.

(** string-build-index! is invisible: the same characters are held. *)
Theorem string_build_index_correct : forall b cs, holds b cs ->
  exists b', string_build_index b = Ok b' /\ holds b' cs.
Proof. exact build_index_holds. Qed.
Print Assumptions string_build_index_correct.

(** list->string.  The full statement: for 0 <= start <= end <= length, the result
    holds list[start..end).  It is false (see [list_to_string_refuted*]);
    proved for an omitted end, and for 0 < start < end. *)
Theorem list_to_string_partial : forall cs start fin,
  Forall valid_char cs -> Z.of_nat (length (concat (map char_put cs))) < 2 ^ 61 ->
  (0 <= start <= Z.of_nat (length cs) -> exists b,
     list_to_string cs start (-1) = Ok b /\ holds b (skipn (Z.to_nat start) cs))
  /\ (0 < start < fin -> fin <= Z.of_nat (length cs) -> exists b,
     list_to_string cs start fin = Ok b
     /\ holds b (firstn (Z.to_nat (fin - start)) (skipn (Z.to_nat start) cs))).
Proof.
  intros cs start fin Hv Hb. split; intros.
  - apply list_to_string_noend; assumption.
  - apply list_to_string_range; assumption.
Qed.
Print Assumptions list_to_string_partial.

(** Findings. *)

(** A 32-character string of two-byte characters, indexed: taking the substring
    up to its own end aborts the process (assertion in index2ptr). *)
Theorem string_substring_refuted : exists s b,
  list_to_string (repeat 0x3b1 32) 0 (-1) = Ok s
  /\ string_build_index s = Ok b
  /\ scm_substring b 0 32 = Panic.
Proof.
  eexists _, _. split; [vm_compute; reflexivity|]. split; [vm_compute; reflexivity|]. vm_compute. reflexivity.
Qed.
Print Assumptions string_substring_refuted.

(** (list->string '(#\a #\b #\c) 0 2) returns all three characters ... *)
Theorem list_to_string_refuted_end_ignored :
  exists b, list_to_string [97; 98; 99] 0 2 = Ok b /\ b_len b = 3%nat.
Proof. eexists. split; [vm_compute; reflexivity|]. vm_compute. reflexivity. Qed.
Print Assumptions list_to_string_refuted_end_ignored.

(** ... and (list->string '(#\a #\b #\c) 2 2) returns one character, not none. *)
Theorem list_to_string_refuted_empty_range :
  exists b, list_to_string [97; 98; 99] 2 2 = Ok b /\ b_len b = 1%nat.
Proof. eexists. split; [vm_compute; reflexivity|]. vm_compute. reflexivity. Qed.
Print Assumptions list_to_string_refuted_empty_range.

(** Non-vacuity: a multi-byte string that needs an index gets one and holds its
    characters. *)
Example holds_inhabited : exists s b,
  list_to_string (repeat 0x3b1 40) 0 (-1) = Ok s
  /\ string_build_index s = Ok b
  /\ holds b (repeat 0x3b1 40) /\ b_index b <> None
  /\ string_ref b 33 = Ok 0x3b1 /\ end_lookup_aborts b (repeat 0x3b1 40) 40 = false.
Proof.
  destruct (list_to_string_noend (repeat 0x3b1 40) 0) as (s & E & Hs).
  { apply Forall_forall. intros x Hx. apply repeat_spec in Hx. subst. split; [discriminate|reflexivity]. }
  { vm_compute. reflexivity. }
  { vm_compute. split; discriminate. }
  destruct (build_index_holds s _ Hs) as (b & Eb & Hb).
  exists s, b. split; [exact E|]. split; [exact Eb|]. split; [exact Hb|].
  vm_compute in E. injection E as <-. vm_compute in Eb. injection Eb as <-.
  split; [discriminate|]. split; vm_compute; reflexivity.
Qed.
