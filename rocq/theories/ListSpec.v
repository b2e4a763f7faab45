(** What a list structure in the heap denotes. *)
From Coq Require Import List Bool ZArith.
From Verif Require Import Outcome ListModel.
Import ListNotations.

(** [seg h v addrs xs w]: following cdr from [v] through the pairs at [addrs], whose
    cars are [xs], one arrives at [w]. *)
Inductive seg (h : heap) : val -> list nat -> list val -> val -> Prop :=
| seg_nil : forall v, seg h v [] [] v
| seg_cons : forall a x d addrs xs w, nth_error h a = Some (x, d) -> seg h d addrs xs w ->
    seg h (Ptr a) (a :: addrs) (x :: xs) w.

Definition is_pair (v : val) : Prop := exists a, v = Ptr a.
(** [v] is a finite list with elements [xs], terminated by the non-pair [t]. *)
Definition list_of (h : heap) (v : val) (xs : list val) (t : val) : Prop :=
  ~ is_pair t /\ exists addrs, seg h v addrs xs t.
Definition proper (h : heap) (v : val) (xs : list val) : Prop := list_of h v xs Nil.
(** taking the cdr never leaves the pairs *)
Definition circular (h : heap) (v : val) : Prop :=
  forall n, exists addrs xs a, length addrs = n /\ seg h v addrs xs (Ptr a).

(** no dangling pointers *)
Definition in_heap (h : heap) (v : val) : Prop := match v with Ptr a => a < length h | _ => True end.
Definition closed (h : heap) : Prop := Forall (fun c => in_heap h (fst c) /\ in_heap h (snd c)) h.

(** every cell of [h] is as it was in [h'] *)
Definition preserved (h h' : heap) : Prop := forall a, a < length h -> nth_error h' a = nth_error h a.
(** only the cells at [addrs] may differ *)
Definition changed_only (addrs : list nat) (h h' : heap) : Prop :=
  forall a, a < length h -> ~ In a addrs -> nth_error h' a = nth_error h a.

(** length as an extended natural: [None] for circular lists *)
Definition elength (h : heap) (v : val) (n : option nat) : Prop :=
  match n with
  | Some k => exists xs t, list_of h v xs t /\ length xs = k
  | None => circular h v
  end.
Definition ecompare (a b : option nat) : Z :=
  match a, b with
  | None, None => 0
  | None, Some _ => 1
  | Some _, None => -1
  | Some x, Some y => match Nat.compare x y with Lt => -1 | Eq => 0 | Gt => 1 end
  end%Z.

(** the elements with no equal element before them ([seen]: the elements before) *)
Fixpoint firsts (eqm : val -> val -> bool) (seen xs : list val) : list val :=
  match xs with
  | [] => []
  | x :: r => if existsb (fun y => eqm y x) seen then firsts eqm (x :: seen) r else x :: firsts eqm (x :: seen) r
  end.
(** equality tests: eq?, eqv?, equal? *)
Definition equivalence (eqm : val -> val -> bool) : Prop :=
  (forall x, eqm x x = true) /\ (forall x y, eqm x y = eqm y x) /\ (forall x y z, eqm x y = true -> eqm y z = true -> eqm x z = true).
(** the entry [x] of an alist has a key equal to [obj] *)
Definition key_is (eqm : val -> val -> bool) (h : heap) (obj x : val) : bool :=
  match x with Ptr a => match nth_error h a with Some (k, _) => eqm obj k | None => false end | _ => false end.
(** comparison of an extended length with an integer *)
Definition zcompare (e : option nat) (k : Z) : Z :=
  match e with
  | None => 1
  | Some n => match Z.compare (Z.of_nat n) k with Lt => -1 | Eq => 0 | Gt => 1 end
  end%Z.
(** the pairs met by following cdr from [v] *)
Definition spine_pair (h : heap) (v : val) (a : nat) : Prop := exists addrs xs, seg h v addrs xs (Ptr a).
