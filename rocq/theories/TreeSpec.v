(** Specification of an ordered finite map, independent of trees: an association
    list in strictly increasing key order, with the naive operations on it. *)
From Coq Require Import List Bool ZArith Sorting.Sorted.
Import ListNotations.
Open Scope Z_scope.

(** What a comparison procedure must satisfy: the sign of [cmp] is a total
    preorder.  Keys with [cmp a b = 0] are the same key. *)
Record ordering {K} (cmp : K -> K -> Z) : Prop := {
  cmp_refl : forall a, cmp a a = 0;
  cmp_opp : forall a b, cmp a b < 0 <-> 0 < cmp b a;
  cmp_trans : forall a b c, cmp a b < 0 -> cmp b c < 0 -> cmp a c < 0;
  cmp_eq_lt : forall a b c, cmp a b = 0 -> cmp b c < 0 -> cmp a c < 0;
}.

Section Spec.
Context {K V : Type} (cmp : K -> K -> Z).
Definition alist := list (K * V).

Definition sorted_map (m : alist) : Prop :=
  StronglySorted (fun a b => cmp (fst a) (fst b) < 0) m.

Definition same (k : K) (e : K * V) : bool := cmp (fst e) k =? 0.
Definition below (k : K) (e : K * V) : bool := cmp (fst e) k <? 0.
Definition above (k : K) (e : K * V) : bool := 0 <? cmp (fst e) k.

Definition lookup (k : K) (m : alist) : option V := option_map snd (find (same k) m).
(** Store [v] under [k]: a present key keeps its place (and its key object). *)
Definition put (k : K) (v : V) (m : alist) : alist :=
  filter (below k) m
  ++ (match find (same k) m with Some e => (fst e, v) | None => (k, v) end)
  :: filter (above k) m.
Definition remove (k : K) (m : alist) : alist := filter (fun e => negb (same k e)) m.
Definition first (m : alist) : option (K * V) := hd_error m.
Definition final (m : alist) : option (K * V) := hd_error (rev m).
(** greatest entry below / least entry above a key *)
Definition pred_of (k : K) (m : alist) : option (K * V) := final (filter (below k) m).
Definition succ_of (k : K) (m : alist) : option (K * V) := first (filter (above k) m).

(** Operations a program can perform, and their answers. *)
Inductive op :=
| OPut (k : K) (v : V)
| OUpdate (k : K) (v : V)            (* only if the key is present *)
| OPutNew (k : K) (v : V)            (* only if the key is absent *)
| OGet (k : K)
| ODelete (k : K)
| OMin | OMax | OPopMin | OPopMax
| ONear (k : K)                      (* exact, closest below, closest above *)
| OCount
| OEntries                           (* whole contents, ascending *)
| OEntriesDown                       (* whole contents, descending *)
| OClear
| OCopy                              (* go on with a copy *)
| OCheck.                            (* tree consistency check *)

Inductive ans :=
| AVal (v : option V)
| AEnt (e : option (K * V))
| ANear (e l h : option (K * V))
| ANum (n : Z)
| AList (m : alist)
| AUnit
| ABool (b : bool).

Definition spec_step (o : op) (m : alist) : alist * ans :=
  match o with
  | OPut k v => (put k v m, AVal (lookup k m))
  | OUpdate k v => (match lookup k m with Some _ => put k v m | None => m end, AVal (lookup k m))
  | OPutNew k v => (match lookup k m with Some _ => m | None => put k v m end, AVal (lookup k m))
  | OGet k => (m, AVal (lookup k m))
  | ODelete k => (remove k m, AVal (lookup k m))
  | OMin => (m, AEnt (first m))
  | OMax => (m, AEnt (final m))
  | OPopMin => (tl m, AEnt (first m))
  | OPopMax => (removelast m, AEnt (final m))
  | ONear k => (m, ANear (find (same k) m) (pred_of k m) (succ_of k m))
  | OCount => (m, ANum (Z.of_nat (length m)))
  | OEntries => (m, AList m)
  | OEntriesDown => (m, AList (rev m))
  | OClear => ([], AUnit)
  | OCopy => (m, AUnit)
  | OCheck => (m, ABool true)
  end.

Fixpoint spec_run (ops : list op) (m : alist) : alist * list ans :=
  match ops with
  | [] => (m, [])
  | o :: rest =>
    let (m1, a) := spec_step o m in
    let (m2, l) := spec_run rest m1 in (m2, a :: l)
  end.
End Spec.
Arguments alist K V : clear implicits.
Arguments op K V : clear implicits.
Arguments ans K V : clear implicits.

(** An iterator over a sequence, as a position in it. *)
Inductive cursor (A : Type) :=
| CFresh                                  (* not started: next enters at the front, prev at the back *)
| CAt (before : list A) (x : A) (after : list A)
| CPastEnd | CPastStart                   (* ran off one end; may turn back *)
| CDead.                                  (* stepped again beyond an end *)
Arguments CFresh {A}. Arguments CAt {A}. Arguments CPastEnd {A}. Arguments CPastStart {A}. Arguments CDead {A}.
Definition cursor_at_front {A} (l : list A) : cursor A := match l with [] => CDead | x :: r => CAt [] x r end.
Definition cursor_at_back {A} (l : list A) : cursor A := match rev l with [] => CDead | x :: r => CAt (rev r) x [] end.
(** [true]: next, [false]: prev *)
Definition cursor_step {A} (l : list A) (next : bool) (c : cursor A) : cursor A :=
  match c, next with
  | CFresh, true => cursor_at_front l
  | CFresh, false => cursor_at_back l
  | CAt a x (y :: b), true => CAt (a ++ [x]) y b
  | CAt a x [], true => CPastEnd
  | CAt a x b, false => match rev a with [] => CPastStart | y :: a' => CAt (rev a') y (x :: b) end
  | CPastEnd, true => CDead
  | CPastEnd, false => cursor_at_back l
  | CPastStart, true => cursor_at_front l
  | CPastStart, false => CDead
  | CDead, _ => CDead
  end.
Definition cursor_elem {A} (c : cursor A) : option A := match c with CAt _ x _ => Some x | _ => None end.
Fixpoint cursor_run {A} (l : list A) (moves : list bool) (c : cursor A) : list (option A) :=
  match moves with
  | [] => []
  | m :: r => let c' := cursor_step l m c in cursor_elem c' :: cursor_run l r c'
  end.
