(** Independent specification of the UTF-8 scheme (RFC 2279 table). *)
From Coq Require Import ZArith List.
Import ListNotations.
Local Open Scope Z_scope.

(** The characters the encoding can carry. *)
Definition valid_char (c : Z) : Prop := 0 <= c < 2 ^ 31.
Definition is_byte (b : Z) : Prop := 0 <= b < 256.

(** Row [n] of the RFC 2279 table: [n] continuation bytes, how many codes the
    rows up to [n] can carry, and the value of the lead byte's marker bits. *)
Definition row_limit (n : nat) : Z := 2 ^ (nth n [7; 11; 16; 21; 26; 31] 0).
Definition row_lead (n : nat) : Z := nth n [0; 192; 224; 240; 248; 252] 0.

(** [c] written in base 64 with [n] trailing digits, most significant first,
    each carried by a continuation byte 10xxxxxx. *)
Fixpoint tail_bytes (n : nat) (c : Z) : list Z :=
  match n with
  | O => []
  | S n' => (128 + (c / 64 ^ Z.of_nat n') mod 64) :: tail_bytes n' c
  end.

(** Row [n] encoding of [c]. *)
Definition row_encode (n : nat) (c : Z) : list Z :=
  (row_lead n + c / 64 ^ Z.of_nat n) :: tail_bytes n c.

(** [bs] is *the* UTF-8 encoding of [c]: the row is the least one that can carry
    [c], i.e. the encoding is the shortest. *)
Definition utf8_encodes (c : Z) (bs : list Z) : Prop :=
  exists n, (n <= 5)%nat /\ c < row_limit n
    /\ (forall m, (m < n)%nat -> row_limit m <= c)
    /\ bs = row_encode n c.
