(** util.combinations: permutations*-for-each, power-set*, power-set*-for-each (lib/util/combinations.scm). *)
From Coq Require Import List Bool Arith.
From Verif Require Import CbModel Cb3Model.
Import ListNotations.

Section C.
Context {A S : Type}.
Variable eq : A -> A -> bool.
(** combinations.scm:123-137  permutations*-for-each; the fuel k, the length, bounds the depth *)
Fixpoint perms_star_for_each (k : nat) (proc : list A -> S -> S) (set : list A) (s : S) : S :=
  match set with
  | [] => s
  | [a] => proc set s
  | [a; b] => if eq a b then proc set s else proc [b; a] (proc set s)
  | _ => match k with
         | 0 => s
         | Datatypes.S k =>
             (fix loop i seen p s := match p with
              | [] => s
              | x :: cdr => if member eq x seen then loop (i + 1) seen cdr s
                            else loop (i + 1) (x :: seen) cdr (perms_star_for_each k (fun subperm => proc (x :: subperm)) (but_kth set i) s)
              end) 0 [] set s
         end
  end.
Definition permutations_star_for_each proc (set : list A) s := perms_star_for_each (length set) proc set s.
(** combinations.scm:227-233  power-set*; k is how many rounds of the loop are left *)
Fixpoint power_star_loop (k : nat) (set : list A) (i : nat) : list (list A) :=
  if length set <? i then []
  else match k with 0 => [] | Datatypes.S k => combinations_star eq i set ++ power_star_loop k set (i + 1) end.
Definition power_set_star (set : list A) := power_star_loop (length set + 1) set 0.
(** combinations.scm:235-239  power-set*-for-each *)
Fixpoint power_star_for_each_loop (k : nat) (proc : list A -> S -> S) (set : list A) (i : nat) (s : S) : S :=
  if length set <? i then s
  else match k with 0 => s | Datatypes.S k => power_star_for_each_loop k proc set (i + 1) (combinations_star_for_each eq i proc set s) end.
Definition power_set_star_for_each (proc : list A -> S -> S) (set : list A) (s : S) : S := power_star_for_each_loop (length set + 1) proc set 0 s.
End C.
