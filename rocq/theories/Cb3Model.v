(** util.combinations: permutations*, combinations* and combinations*-for-each (lib/util/combinations.scm). eq is a pure
    predicate; sets are lists; a procedure that is called for each is a function on a state. *)
From Coq Require Import List Bool Arith.
From Verif Require Import CbModel.
Import ListNotations.

Section C.
Context {A S : Type}.
Variable eq : A -> A -> bool.
(** member with a predicate, and lset-difference of two lists *)
Definition member (x : A) (l : list A) : bool := existsb (eq x) l.
Definition lset_difference (l1 l2 : list A) : list A := filter (fun x => negb (member x l2)) l1.
(** combinations.scm:69-89  permutations*; the fuel k, the length, bounds the depth *)
Fixpoint perms_star (k : nat) (set : list A) : list (list A) :=
  match set with
  | [] => [[]]
  | [a] => [set]
  | [a; b] => if eq a b then [set] else [set; [b; a]]
  | _ => match k with
         | 0 => []
         | Datatypes.S k =>
             (fix loop i seen p r := match p with
              | [] => rev r
              | x :: cdr => if member x seen then loop (i + 1) seen cdr r
                            else loop (i + 1) (x :: seen) cdr (fold_left (fun r subperm => (x :: subperm) :: r) (perms_star k (but_kth set i)) r)
              end) 0 [] set []
         end
  end.
Definition permutations_star (set : list A) := perms_star (length set) set.
(** combinations.scm:154-170  combinations* (a negative n is as 0) *)
Fixpoint combinations_star (n : nat) (set : list A) : list (list A) :=
  match n with
  | 0 => [[]]
  | Datatypes.S n =>
      (fix loop p seen r := match p with
       | [] => rev r
       | x :: cdr => if member x seen then loop cdr seen r
                     else loop cdr (x :: seen) (fold_left (fun r c => (x :: c) :: r) (combinations_star n (lset_difference cdr seen)) r)
       end) set [] []
  end.
(** combinations.scm:182-196  combinations*-for-each *)
Fixpoint combinations_star_for_each (n : nat) (proc : list A -> S -> S) (set : list A) (s : S) : S :=
  match n with
  | 0 => proc [] s
  | Datatypes.S n =>
      (fix loop p seen s := match p with
       | [] => s
       | x :: cdr => if member x seen then loop cdr seen s
                     else loop cdr (x :: seen) (combinations_star_for_each n (fun sub_comb => proc (x :: sub_comb)) (lset_difference cdr seen) s)
       end) set [] s
  end.
End C.
