(** Directed graphs up to an equivalence of nodes. *)
From Coq Require Import List Bool.
Import ListNotations.

Record equivalence {V} (eqv : V -> V -> bool) : Prop := {
  eqv_refl : forall x, eqv x x = true;
  eqv_sym : forall x y, eqv x y = true -> eqv y x = true;
  eqv_trans : forall x y z, eqv x y = true -> eqv y z = true -> eqv x z = true
}.
Section S.
Context {V : Type} (eqv : V -> V -> bool).
Definition same (x y : V) : Prop := eqv x y = true.
(** membership up to equivalence *)
Definition among (x : V) (l : list V) : Prop := exists y, In y l /\ same x y.
(** no node occurs twice *)
Fixpoint distinct (l : list V) : Prop := match l with [] => True | x :: r => ~ among x r /\ distinct r end.
(** the nodes of a graph: keys and successors *)
Definition is_node (g : list (V * list V)) (x : V) : Prop :=
  exists k ts, In (k, ts) g /\ (same x k \/ among x ts).
Definition edge (g : list (V * list V)) (x y : V) : Prop :=
  exists k ts, In (k, ts) g /\ same x k /\ among y ts.
Inductive path (g : list (V * list V)) : V -> V -> Prop :=
| path_one x y : edge g x y -> path g x y
| path_more x y z : edge g x y -> path g y z -> path g x z.
Definition acyclic (g : list (V * list V)) : Prop := forall x, ~ path g x x.
(** [x] comes before [y] in [l] *)
Definition before (l : list V) (x y : V) : Prop :=
  exists a x' b y' c, l = a ++ x' :: b ++ y' :: c /\ same x x' /\ same y y'.
(** a topological order of [g]: every node exactly once, sources of edges before their targets *)
Definition topological (g : list (V * list V)) (l : list V) : Prop :=
  distinct l /\ (forall x, is_node g x <-> among x l) /\ (forall x y, edge g x y -> before l x y).
End S.
