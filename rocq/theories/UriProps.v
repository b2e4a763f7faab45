(** C25: percent-encoding (lib/rfc/uri.scm). *)
From Coq Require Import String List Bool ZArith Lia.
From Verif Require Import UriModel UriSpec UriProofs.
Import ListNotations.
Local Open Scope Z_scope.

(** uri-decode computes what a text stands for, for every text; and that is unique. *)
Theorem uri_decode_correct : forall form s bs, percent_means form s bs <-> uri_decode form s = bs.
Proof. intros. split; [apply means_decode|intros <-; apply decode_means]. Qed.
(** uri-encode writes only characters of the noescape set and %HH triplets. *)
Theorem uri_encode_text : forall noescape bs, Forall is_byte bs ->
  encoded_text (fun c => c < 128 /\ noescape c = true) (uri_encode noescape bs).
Proof. exact encode_text. Qed.
(** With the default set: only unreserved characters of RFC 3986. *)
Theorem uri_encode_default : forall bs, Forall is_byte bs ->
  encoded_text (fun c => In c unreserved) (uri_encode rfc3986_unreserved bs).
Proof.
  intros bs H. apply encode_text with (ne := rfc3986_unreserved) in H. induction H as [|c s [Hc Hu] H IH|a b s Ha Hb H IH]; [constructor| |now apply et_octet]. apply et_char; [|assumption].
  assert (0 <= c) by (unfold rfc3986_unreserved, alnum in Hu; rewrite !orb_true_iff, !andb_true_iff, !Z.leb_le, !Z.eqb_eq in Hu; lia).
  assert (B : forallb (fun c => negb (rfc3986_unreserved c) || existsb (Z.eqb c) unreserved) (map Z.of_nat (seq 0 128)) = true) by (vm_compute; reflexivity).
  rewrite forallb_forall in B. specialize (B c). rewrite Hu in B. cbn [negb orb] in B.
  assert (E : existsb (Z.eqb c) unreserved = true) by (apply B, in_map_iff; exists (Z.to_nat c); split; [lia|apply in_seq; lia]).
  apply existsb_exists in E as (x & Hx & E). apply Z.eqb_eq in E. now subst.
Qed.
(** Round trip: the noescape set must not contain %, nor + when decoding forms. *)
Theorem uri_round_trip : forall noescape form bs, Forall is_byte bs -> noescape 37 = false -> (form = true -> noescape 43 = false) ->
  uri_decode form (uri_encode noescape bs) = bs.
Proof. exact encode_decode. Qed.
Theorem uri_round_trip_default : forall form bs, Forall is_byte bs ->
  uri_decode form (uri_encode rfc3986_unreserved bs) = bs /\ uri_decode form (uri_encode rfc2396_unreserved bs) = bs.
Proof. intros form bs H. split; apply encode_decode; auto. Qed.
Theorem uri_percent_noescape_refuted : uri_decode false (uri_encode (fun _ => true) (codes "%41"%string)) = codes "A"%string.
Proof. reflexivity. Qed.
Theorem uri_plus_noescape_refuted : uri_decode true (uri_encode (fun c => c =? 43) (codes "+"%string)) = codes " "%string.
Proof. reflexivity. Qed.

Example uri_run : uri_encode rfc3986_unreserved (codes "a b/~%"%string ++ [227; 129; 130]) = codes "a%20b%2F~%25%E3%81%82"%string.
Proof. vm_compute. reflexivity. Qed.
Example uri_run_decode : uri_decode true (codes "a+b%2fc%2%zz%"%string) = codes "a b/c%2%zz%"%string.
Proof. vm_compute. reflexivity. Qed.

Print Assumptions uri_decode_correct.
Print Assumptions uri_encode_text.
Print Assumptions uri_encode_default.
Print Assumptions uri_round_trip.
Print Assumptions uri_round_trip_default.
Print Assumptions uri_percent_noescape_refuted.
Print Assumptions uri_plus_noescape_refuted.
