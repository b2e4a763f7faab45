(** What generic functions promise. *)
From Coq Require Import List Bool Arith ZArith.
From Verif Require Import GfModel.
Import ListNotations.

Section S.
Variable cpl : class -> list class.
(** class precedence lists begin with the class, have no duplicates, end with <top> *)
Definition cpl_ok : Prop := forall c, (exists l, cpl c = c :: l) /\ NoDup (cpl c) /\ In top (cpl c).
(** m can be called with args *)
Definition applicable (m : method) (args : list class) : Prop :=
  (length args = req m \/ opt m = true /\ req m <= length args) /\
  forall i s, nth_error (specs m) i = Some s -> exists c, nth_error args i = Some c /\ In s (cpl c).
(** a comes before b in l *)
Definition precedes {A} (l : list A) (a b : A) : Prop :=
  exists i j, i < j /\ nth_error l i = Some a /\ nth_error l j = Some b.
(** x is more specific than y for args: the first argument on which they differ decides; then the one with
    more required arguments; then the one without optional ones *)
Definition before (args : list class) (x y : method) : Prop :=
  (exists i s t c, firstn i (specs x) = firstn i (specs y) /\ nth_error (specs x) i = Some s /\ nth_error (specs y) i = Some t /\
     nth_error args i = Some c /\ precedes (cpl c) s t) \/
  (exists r, specs x = specs y ++ r /\ r <> []) \/
  (specs x = specs y /\ opt x = false /\ opt y = true).
Definition wf_method (m : method) : Prop := length (specs m) = req m.
(** methods of one generic function *)
Definition wf_methods (ms : list method) : Prop :=
  Forall wf_method ms /\ NoDup (map mid ms) /\
  forall a b, In a ms -> In b ms -> specs a = specs b -> opt a = opt b -> a = b.
(** the methods to call, in order: placeholders only call the next one *)
Definition calls (ms : list method) (args : list class) (l : list method) : Prop :=
  (forall m, In m l <-> In m ms /\ plc m = false /\ applicable m args) /\
  NoDup l /\
  forall i j a b, i < j -> nth_error l i = Some a -> nth_error l j = Some b -> before args a b.
End S.

(** operations on a generic function *)
Inductive op := Add (m : method) | Delete (m : method).
Fixpoint runops (ops : list op) (g : gf) : option gf :=
  match ops with
  | [] => Some g
  | Add m :: r => match add_method m g with Some g' => runops r g' | None => None end
  | Delete m :: r => runops r (delete_method m g)
  end.
(** the methods after a history, newest definitions first in time: signature by signature *)
Definition has_sig (m x : method) : Prop := specs m = specs x /\ opt m = opt x.
Fixpoint live (ops : list op) (m : method) : Prop :=   (* ops: the newest first *)
  match ops with
  | [] => False
  | Add x :: r => m = x \/ (live r m /\ ~ has_sig m x)
  | Delete x :: r => live r m /\ mid m <> mid x
  end.
(** what a caller of l can see: a leaf method does not call the next one *)
Fixpoint visible (l : list method) : list method :=
  match l with [] => [] | m :: r => if leaf m then [m] else m :: visible r end.
(** the number of arguments suits m *)
Definition accepts (m : method) (n : nat) : Prop := n = req m \/ opt m = true /\ req m <= n.
(** when the table on the first argument is harmless: it is not used for no argument or more than four, and of
    the methods specialized for exactly the class of the first argument one is applicable, or none is of interest *)
Definition dispatch_safe (cpl : class -> list class) (ms : list method) (args : list class) : Prop :=
  args = [] \/ 4 < length args \/
  length args < 4 /\
  ((exists m, In m ms /\ plc m = false /\ applicable cpl m args /\ nth_error (specs m) 0 = nth_error args 0) \/
   (forall m, In m ms -> nth_error (specs m) 0 = nth_error args 0 -> ~ accepts m (length args))).
