(** Specification of a finite map over keys with an equivalence [eqf]: an unordered
    association list with the naive operations. *)
From Coq Require Import List Bool ZArith Permutation.
Import ListNotations.

(** requirements on the key comparison and the hash function of a table *)
Record key_ok {K} (hashfn : K -> Z) (eqf : K -> K -> bool) : Prop := {
  ko_refl : forall a, eqf a a = true;
  ko_sym : forall a b, eqf a b = eqf b a;
  ko_trans : forall a b c, eqf a b = true -> eqf b c = true -> eqf a c = true;
  ko_hash : forall a b, eqf a b = true -> hashfn a = hashfn b;
  ko_range : forall a, (0 <= hashfn a < 2 ^ 64)%Z;
}.

Section Spec.
Context {K V : Type} (eqf : K -> K -> bool).
Definition fmap := list (K * V).
Definition flookup (k : K) (m : fmap) : option V := option_map snd (find (fun e => eqf k (fst e)) m).
Definition fput (k : K) (v : V) (m : fmap) : fmap :=
  match flookup k m with
  | Some _ => map (fun e => if eqf k (fst e) then (fst e, v) else e) m
  | None => (k, v) :: m
  end.
Definition fremove (k : K) (m : fmap) : fmap := filter (fun e => negb (eqf k (fst e))) m.

Inductive hop :=
| HPut (k : K) (v : V) | HReplace (k : K) (v : V) | HAdjoin (k : K) (v : V)
| HGet (k : K) | HDelete (k : K) | HCount | HEntries | HClear | HCopy
| HSweep (kill : K -> bool).     (* one iteration, deleting the visited entries satisfying [kill] *)

Inductive hans := HVal (v : option V) | HNum (n : Z) | HList (m : fmap) | HUnit.

Definition hspec_step (o : hop) (m : fmap) : fmap * hans :=
  match o with
  | HPut k v => (fput k v m, HVal (flookup k m))
  | HReplace k v => (match flookup k m with Some _ => fput k v m | None => m end, HVal (flookup k m))
  | HAdjoin k v => (match flookup k m with Some _ => m | None => fput k v m end, HVal (flookup k m))
  | HGet k => (m, HVal (flookup k m))
  | HDelete k => (fremove k m, HVal (flookup k m))
  | HCount => (m, HNum (Z.of_nat (length m)))
  | HEntries => (m, HList m)
  | HClear => ([], HUnit)
  | HCopy => (m, HUnit)
  | HSweep kill => (filter (fun e => negb (kill (fst e))) m, HList m)
  end.
Fixpoint hspec_run (ops : list hop) (m : fmap) : fmap * list hans :=
  match ops with
  | [] => (m, [])
  | o :: rest => let (m1, a) := hspec_step o m in let (m2, l) := hspec_run rest m1 in (m2, a :: l)
  end.

(** Answers are equal, listings up to order. *)
Definition ans_same (a b : hans) : Prop :=
  match a, b with
  | HList x, HList y => Permutation x y
  | _, _ => a = b
  end.
(** keys pairwise different *)
Fixpoint distinct (m : fmap) : Prop :=
  match m with [] => True | e :: r => Forall (fun x => eqf (fst e) (fst x) = false) r /\ distinct r end.
End Spec.
Arguments fmap K V : clear implicits.
Arguments hop K V : clear implicits.
Arguments hans K V : clear implicits.
