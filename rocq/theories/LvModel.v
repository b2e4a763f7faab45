(** util.levenshtein: l-distance(s) and re-distance(s) (lib/util/levenshtein.scm). elt= is a pure predicate.
    Sequences are lists.  A row is filled from left to right and read only where it has been filled, so a row
    vector is the list of what is written; the circular list of rows is the last one or two rows. *)
From Coq Require Import List Bool Arith.
Import ListNotations.

Section L.
Context {A : Type}.
Variable elt : A -> A -> bool.
Definition min3 a b c := Nat.min a (Nat.min b c).
(** levenshtein.scm:107-116: the inner loop of l-base: the rest of row-0 and dmin; prev is row-0 at i, row1 is row-1 from i on *)
Fixpoint l_row (a : list A) (b : A) (row1 : list nat) (prev dmin : nat) : list nat * nat :=
  match a, row1 with
  | x :: a', r0 :: ((r1 :: _) as row1') =>
      let d := min3 (prev + 1) (r1 + 1) (r0 + if elt x b then 0 else 1) in
      let '(l, m) := l_row a' b row1' d (if d <? dmin then d else dmin) in (d :: l, m)
  | _, _ => ([], dmin)
  end.
(** check with cutoff: true breaks with #f *)
Definition over (cutoff : option nat) (d : nat) : bool := match cutoff with Some c => c <? d | None => false end.
(** levenshtein.scm:101-119  run, the loop over B *)
Fixpoint l_loop (a : list A) (cutoff : option nat) (B : list A) (j : nat) (row1 : list nat) : option (list nat) :=
  match B with
  | [] => Some row1
  | b :: B' => let '(l, m) := l_row a b row1 (j + 1) (j + 1) in
               if over cutoff m then None else l_loop a cutoff B' (j + 1) ((j + 1) :: l)
  end.
Definition finish (cutoff : option nat) (n : nat) (row : option (list nat)) : option nat :=
  match row with
  | None => None
  | Some row => let r := nth n row 0 in if over cutoff r then None else Some r
  end.
(** levenshtein.scm:95-132  l-base for one B, l-distance: None is #f *)
Definition l_distance (a B : list A) (cutoff : option nat) : option nat :=
  finish cutoff (length a) (l_loop a cutoff B 0 (seq 0 (length a + 1))).
Definition l_distances a Bs cutoff := map (fun B => l_distance a B cutoff) Bs.

(** levenshtein.scm:175-190: the inner loop of re-base. The rows are given without their first element, which is
    read only for i = 0 in the third row, and there it is not. *)
Fixpoint re_row (A_all B_all : list A) (i j : nat) (a : list A) (b : A) (row2 row1 : list nat) (prev dmin : nat) : list nat * nat :=
  match a, row1 with
  | x :: a', r0 :: ((r1 :: _) as row1') =>
      let d := min3 (prev + 1) (r1 + 1) (r0 + if elt x b then 0 else 1) in
      let d := if (1 <? i) && (1 <? j) &&
                  match nth_error B_all (j - 1) with Some b' => elt x b' | None => false end &&
                  match nth_error A_all (i - 1) with Some x' => elt x' b | None => false end
               then Nat.min d (nth (i - 1) row2 0 + if elt x b then 0 else 1) else d in
      let '(l, m) := re_row A_all B_all (i + 1) j a' b row2 row1' d (if d <? dmin then d else dmin) in (d :: l, m)
  | _, _ => ([], dmin)
  end.
Fixpoint re_loop (a B_all : list A) (cutoff : option nat) (B : list A) (j : nat) (row2 row1 : list nat) (dmin1 : nat) : option (list nat) :=
  match B with
  | [] => Some row1
  | b :: B' => let '(l, m) := re_row a B_all 0 j a b row2 row1 (j + 1) (j + 1) in
               if over cutoff (Nat.min m dmin1) then None else re_loop a B_all cutoff B' (j + 1) row1 ((j + 1) :: l) m
  end.
(** levenshtein.scm:152-222  re-base for one B, re-distance *)
Definition re_distance (a B : list A) (cutoff : option nat) : option nat :=
  finish cutoff (length a)
    (re_loop a B cutoff B 0 (repeat (length a + length B) (length a + 1)) (seq 0 (length a + 1)) 0).
Definition re_distances a Bs cutoff := map (fun B => re_distance a B cutoff) Bs.
End L.
