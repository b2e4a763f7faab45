(** The rational number an exact object stands for, and when the object is well formed. *)
From Coq Require Import ZArith QArith.
From Verif Require Import Outcome BignumModel IntSpec RatModel.
Local Open Scope Z_scope.

(** an integer object, or a ratnum in lowest terms with denominator above 1 *)
Definition wf (x : exact) : Prop :=
  match x with
  | EInt n => canonical n
  | ERat n d => canonical n /\ canonical d /\ 1 < int_of d /\ Z.gcd (int_of n) (int_of d) = 1
  end.
Definition rat_of (x : exact) : Q :=
  match x with EInt n => inject_Z (int_of n) | ERat n d => int_of n # Z.to_pos (int_of d) end.
(** numerator and denominator below 2^(64 * 2^26), so that no intermediate result exceeds
    the largest bignum *)
Definition moderate (x : exact) : Prop :=
  match x with EInt n => nwords n <= 2 ^ 26 | ERat n d => nwords n <= 2 ^ 26 /\ nwords d <= 2 ^ 26 end.
Definition den (x : exact) : Z := Z.pos (Qden (rat_of x)).
(** the operation gives a well-formed object standing for [q] *)
Definition gives (r : res exact) (q : Q) : Prop := exists x, r = Ok x /\ wf x /\ (rat_of x == q)%Q.
(** -1/j *)
Definition minus_unit (q : Q) : Prop := exists j, 0 < j /\ (q * inject_Z j == -1)%Q.
