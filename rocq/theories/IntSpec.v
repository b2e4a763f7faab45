(** What an exact-integer object means, and which objects are canonical. *)
From Coq Require Import List ZArith.
From Verif Require Import Outcome BignumModel.
Import ListNotations.
Local Open Scope Z_scope.

(** the natural number written by words, least significant first, in base 2^64 *)
Fixpoint value (ws : list Z) : Z :=
  match ws with [] => 0 | w :: t => w + 2 ^ 64 * value t end.
(** the integer an object stands for *)
Definition int_of (x : num) : Z :=
  match x with Fix v => v | Bn b => sign b * value (words b) end.
Definition in_fixnum_range (z : Z) : Prop := - 2 ^ 61 <= z < 2 ^ 61.
Definition is_word (w : Z) : Prop := 0 <= w < 2 ^ 64.
(** A canonical object: a fixnum in range, or a bignum with sign 1 or -1, proper words,
    no leading zero word and a value outside the fixnum range. *)
Definition canonical (x : num) : Prop :=
  match x with
  | Fix v => in_fixnum_range v
  | Bn b => (sign b = 1 \/ sign b = -1) /\ Forall is_word (words b) /\ last (words b) 0 <> 0
            /\ ~ in_fixnum_range (int_of x)
  end.
(** number of words of a bignum, 1 for a fixnum *)
Definition nwords (x : num) : Z := match x with Fix _ => 1 | Bn b => Z.of_nat (length (words b)) end.
(** the operation succeeds with a canonical object standing for [z] *)
Definition returns (r : res num) (z : Z) : Prop := exists x, r = Ok x /\ canonical x /\ int_of x = z.
