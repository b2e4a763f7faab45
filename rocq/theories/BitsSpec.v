(** Packed bits as a sequence of booleans. *)
From Coq Require Import ZArith List Bool Arith.
From Verif Require Import BitsModel.
Import ListNotations.
Local Open Scope Z_scope.

Definition word (w : Z) : Prop := 0 <= w < 2 ^ 64.
Definition memory (mem : list Z) : Prop := Forall word mem.
(** bit number [k] of the memory: the bits of an array at word offset p are numbered from 64*p *)
Definition bit (mem : list Z) (k : nat) : bool := Z.testbit (nth (k / 64) mem 0) (Z.of_nat (k mod 64)).
(** bit i of the array at p *)
Definition at_ (mem : list Z) (p i : nat) : bool := bit mem (64 * p + i)%nat.
(** the array at p has n bits, all within the memory *)
Definition array (mem : list Z) (p n : nat) : Prop := (64 * p + n <= 64 * length mem)%nat.
Definition bool_op (op : bitop) (a b : bool) : bool :=
  match op with
  | BAnd => a && b | BIor => a || b | BXor => xorb a b | BEqv => negb (xorb a b) | BNand => negb (a && b) | BNor => negb (a || b)
  | BAndc1 => negb a && b | BAndc2 => a && negb b | BIorc1 => negb a || b | BIorc2 => a || negb b
  | BXorc1 => xorb (negb a) b | BXorc2 => xorb a (negb b) | BSrc1 => a | BSrc2 => b | BNot1 => negb a | BNot2 => negb b
  end.
(** number of i in [s, s+n) with f i *)
Fixpoint count_if (f : nat -> bool) (s n : nat) : nat :=
  match n with O => O | S m => ((if f s then 1 else 0) + count_if f (S s) m)%nat end.
Definition first_in (f : nat -> bool) (s e : nat) (r : option nat) : Prop :=
  match r with
  | Some k => (s <= k < e)%nat /\ f k = true /\ forall i, (s <= i < k)%nat -> f i = false
  | None => forall i, (s <= i < e)%nat -> f i = false
  end.
Definition last_in (f : nat -> bool) (s e : nat) (r : option nat) : Prop :=
  match r with
  | Some k => (s <= k < e)%nat /\ f k = true /\ forall i, (k < i < e)%nat -> f i = false
  | None => forall i, (s <= i < e)%nat -> f i = false
  end.
