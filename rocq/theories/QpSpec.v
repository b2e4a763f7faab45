(** Quoted-printable text, RFC 2045 section 6.7. *)
From Coq Require Import List Bool ZArith.
Import ListNotations.
Local Open Scope Z_scope.
Definition is_byte (b : Z) : Prop := 0 <= b < 256.
(** Every line end (CR, LF or CR LF) as CR LF. *)
Fixpoint crlf (bs : list Z) : list Z :=
  match bs with
  | [] => []
  | 13 :: 10 :: r => 13 :: 10 :: crlf r
  | 13 :: r => 13 :: 10 :: crlf r
  | 10 :: r => 13 :: 10 :: crlf r
  | c :: r => c :: crlf r
  end.
Definition ends_with_cr (bs : list Z) : Prop := exists a, bs = a ++ [13].
(** every line of s, with line ends CR LF, has at most w characters ([used]: so far) *)
Fixpoint lines_within (w used : Z) (s : list Z) : Prop :=
  match s with
  | [] => True
  | 13 :: 10 :: r => lines_within w 0 r
  | c :: r => used < w /\ lines_within w (used + 1) r
  end.
(** RFC 2045: printable characters but "=", and the "=" of escapes and soft line breaks; the line
    ends.  This encoder writes no blank and no "?". *)
Definition upper_hex (c : Z) : Prop := 48 <= c <= 57 \/ 65 <= c <= 70.
Definition plain (c : Z) : Prop := 33 <= c <= 126 /\ c <> 61 /\ c <> 63.
Definition hexval (c : Z) : Z := if c <=? 57 then c - 48 else c - 55.
(** [qp_means s bs]: s is quoted-printable text standing for bs *)
Inductive qp_means : list Z -> list Z -> Prop :=
| qp_nil : qp_means [] []
| qp_plain c s bs : plain c -> qp_means s bs -> qp_means (c :: s) (c :: bs)
| qp_line s bs : qp_means s bs -> qp_means (13 :: 10 :: s) (13 :: 10 :: bs)
| qp_soft s bs : qp_means s bs -> qp_means (61 :: 13 :: 10 :: s) bs
| qp_octet a b s bs : upper_hex a -> upper_hex b -> qp_means s bs -> qp_means (61 :: a :: b :: s) (hexval a * 16 + hexval b :: bs).
