(** Positional numerals. *)
From Coq Require Import List ZArith.
Import ListNotations.
Local Open Scope Z_scope.
(** the digit a character stands for: 0-9, then letters of either case *)
Definition digit_of (c : Z) : option Z :=
  if ((48 <=? c) && (c <=? 57))%bool then Some (c - 48)
  else if ((97 <=? c) && (c <=? 122))%bool then Some (c - 97 + 10)
  else if ((65 <=? c) && (c <=? 90))%bool then Some (c - 65 + 10)
  else None.
Definition is_digit (r c : Z) : Prop := exists d, digit_of c = Some d /\ d < r.
(** a numeral in radix r *)
Definition numeral (r : Z) (s : list Z) : Prop := s <> [] /\ Forall (is_digit r) s.
Definition numeral_value (r : Z) (s : list Z) : Z :=
  fold_left (fun a c => a * r + match digit_of c with Some d => d | None => 0 end) s 0.
Definition no_leading_zero (s : list Z) : Prop := s = [48] \/ hd 0 s <> 48.
