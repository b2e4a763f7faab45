(** util.combinations: permutations, permutations-for-each, combinations, combinations-for-each (lib/util/combinations.scm).
    Sets are lists.  A procedure that is called for each is a function on a state. *)
From Coq Require Import List Bool Arith.
Import ListNotations.

Section C.
Context {A S : Type}.
(** combinations.scm:40-47  but-kth; an access past the end (an error there) gives [] and does not occur *)
Definition but_kth (l : list A) (k : nat) : list A :=
  match k with
  | 0 => match l with _ :: r => r | _ => [] end
  | 1 => match l with a :: _ :: r => a :: r | _ => [] end
  | 2 => match l with a :: b :: _ :: r => a :: b :: r | _ => [] end
  | 3 => match l with a :: b :: c :: _ :: r => a :: b :: c :: r | _ => [] end
  | _ => firstn k l ++ tl (skipn k l)
  end.
Fixpoint fold_with_index {B} (f : nat -> A -> B -> B) (i : nat) (l : list A) (acc : B) : B :=
  match l with [] => acc | x :: r => fold_with_index f (i + 1) r (f i x acc) end.
(** combinations.scm:51-66  permutations; the fuel k, the length, bounds the depth *)
Fixpoint perms (k : nat) (set : list A) : list (list A) :=
  match set with
  | [] => [[]]
  | [a] => [set]
  | [a; b] => [set; [b; a]]
  | [a; b; c] => [set; [a; c; b]; [b; a; c]; [b; c; a]; [c; a; b]; [c; b; a]]
  | _ => match k with
         | 0 => []
         | Datatypes.S k => rev (fold_with_index (fun ind elt acc => fold_left (fun acc subperm => (elt :: subperm) :: acc) (perms k (but_kth set ind)) acc) 0 set [])
         end
  end.
Definition permutations (set : list A) := perms (length set) set.
(** combinations.scm:95-122  p/each3, p/each4, p/each* *)
Definition each3 (proc : list A -> S -> S) x1 x2 x3 (s : S) : S :=
  let s := proc [x1; x2; x3] s in let s := proc [x1; x3; x2] s in let s := proc [x2; x1; x3] s in
  let s := proc [x2; x3; x1] s in let s := proc [x3; x1; x2] s in proc [x3; x2; x1] s.
Definition each4 (proc : list A -> S -> S) x1 x2 x3 x4 (s : S) : S :=
  let s := each3 (fun xs => proc (x1 :: xs)) x2 x3 x4 s in
  let s := each3 (fun xs => proc (x2 :: xs)) x1 x3 x4 s in
  let s := each3 (fun xs => proc (x3 :: xs)) x1 x2 x4 s in
  each3 (fun xs => proc (x4 :: xs)) x1 x2 x3 s.
Fixpoint each_star (len : nat) (proc : list A -> S -> S) (xs : list A) (s : S) : S :=
  if len =? 4 then match xs with [a; b; c; d] => each4 proc a b c d s | _ => s end
  else match len with
       | 0 => s
       | Datatypes.S len1 => fold_with_index (fun ind elt s => each_star len1 (fun subperm => proc (elt :: subperm)) (but_kth xs ind) s) 0 xs s
       end.
(** combinations.scm:113-120  permutations-for-each *)
Definition permutations_for_each (proc : list A -> S -> S) (set : list A) (s : S) : S :=
  match set with
  | [] => s
  | [x] => proc set s
  | [x1; x2] => proc [x2; x1] (proc [x1; x2] s)
  | [x1; x2; x3] => each3 proc x1 x2 x3 s
  | [x1; x2; x3; x4] => each4 proc x1 x2 x3 x4 s
  | _ => each_star (length set) proc set s
  end.
(** combinations.scm:144-152  combinations. A tail of the set stands for its length, so eq? on tails is equality of
    lengths; n is not negative (a negative n is as 0). *)
Fixpoint c_rec (set : list A) (tail : nat) : list (list A) :=
  if tail =? 0 then [set]
  else match set with
       | [] => []
       | x :: cdr => if length cdr =? tail then map (fun y => [y]) set
                     else fold_right (fun c acc => (x :: c) :: acc) (c_rec cdr (tail - 1)) (c_rec cdr tail)
       end.
Definition combinations (set : list A) (n : nat) : list (list A) :=
  if n =? 0 then [[]] else if n <=? length set then c_rec set (length set - n) else [].
(** combinations.scm:172-180  combinations-for-each *)
Fixpoint combinations_for_each (n : nat) (proc : list A -> S -> S) (set : list A) (s : S) : S :=
  match n with
  | 0 => proc [] s
  | Datatypes.S m =>
      (fix pair_for_each l s := match l with
       | [] => s
       | x :: r => pair_for_each r (combinations_for_each m (fun sub_comb => proc (x :: sub_comb)) r s)
       end) set s
  end.
End C.
