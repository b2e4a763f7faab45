(** Specification of the sparse containers: each container is a finite map, an
    unordered association list with the naive operations of HashSpec; a state is the
    list of all containers made so far, in order of creation. *)
From Coq Require Import List Bool ZArith Permutation.
From Verif Require Import HashSpec.
Import ListNotations.

Section Spec.
Context {K V : Type} (eqf : K -> K -> bool).

(** [i] is the number of the container *)
Inductive sop :=
| SNew                                        (* a new empty container *)
| SSet (i : nat) (k : K) (v : V)              (* -set! *)
| SRef (i : nat) (k : K) (fallback : option V) (* -ref, with or without fallback *)
| SExists (i : nat) (k : K)                   (* -exists? *)
| SDelete (i : nat) (k : K)                   (* -delete! *)
| SUpdate (i : nat) (k : K) (f : V -> V) (fallback : option V) (* -update! *)
| SClear (i : nat)                            (* -clear! *)
| SCopy (i : nat)                             (* -copy: a new container *)
| SNum (i : nat)                              (* -num-entries *)
| SFold (i : nat)                             (* -fold, collecting keys and values *)
| SCheck (i : nat).                           (* %-check *)

Inductive sans := AUnit | AErr | AVal (v : V) | ABool (b : bool) | ANum (n : Z) | AList (m : fmap K V).

Definition lupd {A} (i : nat) (x : A) (l : list A) : list A := firstn i l ++ x :: skipn (S i) l.
Definition bound {A} (o : option A) : bool := match o with Some _ => true | None => false end.
Definition orelse {A} (o d : option A) : option A := match o with Some _ => o | None => d end.
Definition val_or_err (o : option V) : sans := match o with Some v => AVal v | None => AErr end.

Definition on (ms : list (fmap K V)) (i : nat) (f : fmap K V -> fmap K V * sans) : list (fmap K V) * sans :=
  match nth_error ms i with
  | Some m => let (m1, a) := f m in (lupd i m1 ms, a)
  | None => (ms, AUnit)
  end.
Definition sspec_step (o : sop) (ms : list (fmap K V)) : list (fmap K V) * sans :=
  match o with
  | SNew => (ms ++ [[]], AUnit)
  | SSet i k v => on ms i (fun m => (fput eqf k v m, AUnit))
  | SRef i k fb => on ms i (fun m => (m, val_or_err (orelse (flookup eqf k m) fb)))
  | SExists i k => on ms i (fun m => (m, ABool (bound (flookup eqf k m))))
  | SDelete i k => on ms i (fun m => (fremove eqf k m, ABool (bound (flookup eqf k m))))
  | SUpdate i k f fb => on ms i (fun m => match orelse (flookup eqf k m) fb with
                                          | Some v => (fput eqf k (f v) m, AVal (f v))
                                          | None => (m, AErr) end)
  | SClear i => on ms i (fun _ => ([], AUnit))
  | SCopy i => match nth_error ms i with Some m => (ms ++ [m], AUnit) | None => (ms, AUnit) end
  | SNum i => on ms i (fun m => (m, ANum (Z.of_nat (length m))))
  | SFold i => on ms i (fun m => (m, AList m))
  | SCheck i => (ms, AUnit)
  end.
Fixpoint sspec_run (ops : list sop) (ms : list (fmap K V)) : list (fmap K V) * list sans :=
  match ops with
  | [] => (ms, [])
  | o :: rest => let (m1, a) := sspec_step o ms in let (m2, l) := sspec_run rest m1 in (m2, a :: l)
  end.
(** Answers are equal, listings up to order. *)
Definition sans_same (a b : sans) : Prop :=
  match a, b with
  | AList x, AList y => Permutation x y
  | _, _ => a = b
  end.
End Spec.
Arguments sop K V : clear implicits.
Arguments sans K V : clear implicits.

(** ** Sparse vectors: finite maps from the integers 0 .. 2^64-1.  [conv] is the
    conversion of a value to the element type of the vector ([None]: not allowed),
    [dflt] the :default of the vector, [add] and [zero] the numbers. *)
Section VSpec.
Context {V : Type} (conv : V -> option V) (dflt : option V) (add : V -> V -> V) (zero : V).
Inductive vop :=
| VNew
| VSet (i : nat) (k : Z) (v : V)
| VRef (i : nat) (k : Z) (fallback : option V)
| VExists (i : nat) (k : Z)
| VDelete (i : nat) (k : Z)
| VUpdate (i : nat) (k : Z) (f : V -> V) (fallback : option V)
| VInc (i : nat) (k : Z) (delta : V) (fallback : option V)
| VClear (i : nat) | VCopy (i : nat) | VNum (i : nat) | VFold (i : nat).
Definition in_range (k : Z) : bool := ((0 <=? k) && (k <? 2 ^ 64))%Z.
Notation look := (flookup Z.eqb).
Definition vset (m : fmap Z V) (k : Z) (v : V) (a : sans Z V) : fmap Z V * sans Z V :=
  match in_range k, conv v with
  | true, Some c => (fput Z.eqb k c m, a)
  | _, _ => (m, AErr)
  end.
Definition vspec_step (o : vop) (ms : list (fmap Z V)) : list (fmap Z V) * sans Z V :=
  match o with
  | VNew => (ms ++ [[]], AUnit)
  | VSet i k v => on ms i (fun m => vset m k v AUnit)
  | VRef i k fb => on ms i (fun m => (m, val_or_err (orelse (look k m) (orelse fb dflt))))
  | VExists i k => on ms i (fun m => (m, ABool (bound (look k m))))
  | VDelete i k => on ms i (fun m => if in_range k then (fremove Z.eqb k m, ABool (bound (look k m))) else (m, AErr))
  | VUpdate i k f fb => on ms i (fun m => match orelse (look k m) (orelse fb dflt) with
                                          | Some v => vset m k (f v) (AVal (f v))
                                          | None => (m, AErr) end)
  | VInc i k d fb => on ms i (fun m =>
      match orelse (look k m) (orelse fb (orelse dflt (Some zero))) with
      | Some v => vset m k (add v d) (AVal (add v d))
      | None => (m, AErr) end)
  | VClear i => on ms i (fun _ => ([], AUnit))
  | VCopy i => match nth_error ms i with Some m => (ms ++ [m], AUnit) | None => (ms, AUnit) end
  | VNum i => on ms i (fun m => (m, ANum (Z.of_nat (length m))))
  | VFold i => on ms i (fun m => (m, AList m))
  end.
Fixpoint vspec_run (ops : list vop) (ms : list (fmap Z V)) : list (fmap Z V) * list (sans Z V) :=
  match ops with
  | [] => (ms, [])
  | o :: rest => let (m1, a) := vspec_step o ms in let (m2, l) := vspec_run rest m1 in (m2, a :: l)
  end.
End VSpec.
Arguments vop V : clear implicits.

(** ** Sparse matrices: finite maps from pairs of integers in 0 .. 2^32-1 *)
Section MSpec.
Context {V : Type} (conv : V -> option V) (dflt : option V) (add : V -> V -> V) (zero : V).
Inductive mop :=
| MNew
| MSet (i : nat) (x y : Z) (v : V)
| MRef (i : nat) (x y : Z) (fallback : option V)
| MExists (i : nat) (x y : Z)
| MDelete (i : nat) (x y : Z)
| MUpdate (i : nat) (x y : Z) (f : V -> V) (fallback : option V)
| MInc (i : nat) (x y : Z) (delta : V) (fallback : option V)
| MClear (i : nat) | MCopy (i : nat) | MNum (i : nat) | MFold (i : nat).
Definition eq2 (p q : Z * Z) : bool := ((fst p =? fst q) && (snd p =? snd q))%Z.
Definition in_range2 (x y : Z) : bool := ((0 <=? x) && (x <? 2 ^ 32) && ((0 <=? y) && (y <? 2 ^ 32)))%Z.
Definition mset (m : fmap (Z * Z) V) (x y : Z) (v : V) (a : sans (Z * Z) V) : fmap (Z * Z) V * sans (Z * Z) V :=
  match in_range2 x y, conv v with
  | true, Some c => (fput eq2 (x, y) c m, a)
  | _, _ => (m, AErr)
  end.
Definition mspec_step (o : mop) (ms : list (fmap (Z * Z) V)) : list (fmap (Z * Z) V) * sans (Z * Z) V :=
  match o with
  | MNew => (ms ++ [[]], AUnit)
  | MSet i x y v => on ms i (fun m => mset m x y v AUnit)
  | MRef i x y fb => on ms i (fun m => (m, val_or_err (orelse (flookup eq2 (x, y) m) (orelse fb dflt))))
  | MExists i x y => on ms i (fun m => (m, ABool (bound (flookup eq2 (x, y) m))))
  | MDelete i x y => on ms i (fun m => if in_range2 x y then (fremove eq2 (x, y) m, ABool (bound (flookup eq2 (x, y) m))) else (m, AErr))
  | MUpdate i x y f fb => on ms i (fun m => match orelse (flookup eq2 (x, y) m) (orelse fb dflt) with
                                            | Some v => mset m x y (f v) AUnit
                                            | None => (m, AErr) end)
  | MInc i x y d fb => on ms i (fun m =>
      match orelse (flookup eq2 (x, y) m) (orelse fb (orelse dflt (Some zero))) with
      | Some v => mset m x y (add v d) (AVal (add v d))
      | None => (m, AErr) end)
  | MClear i => on ms i (fun _ => ([], AUnit))
  | MCopy i => match nth_error ms i with Some m => (ms ++ [m], AUnit) | None => (ms, AUnit) end
  | MNum i => on ms i (fun m => (m, ANum (Z.of_nat (length m))))
  | MFold i => on ms i (fun m => (m, AList m))
  end.
Fixpoint mspec_run (ops : list mop) (ms : list (fmap (Z * Z) V)) : list (fmap (Z * Z) V) * list (sans (Z * Z) V) :=
  match ops with
  | [] => (ms, [])
  | o :: rest => let (m1, a) := mspec_step o ms in let (m2, l) := mspec_run rest m1 in (m2, a :: l)
  end.
End MSpec.
Arguments mop V : clear implicits.
