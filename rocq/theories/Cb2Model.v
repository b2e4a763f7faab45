(** util.combinations: power sets and cartesian products (lib/util/combinations.scm:203-281). Sets are lists, a procedure
    that is called for each is a function on a state; append! and append-map! are on fresh lists, so they are as append. *)
From Coq Require Import List Bool Arith.
From Verif Require Import CbModel.
Import ListNotations.

Section C.
Context {A S : Type}.
(** combinations.scm:203-208  power-set-binary *)
Fixpoint power_set_binary (set : list A) : list (list A) :=
  match set with
  | [] => [[]]
  | x :: cdr => let rest := power_set_binary cdr in rest ++ map (cons x) rest
  end.
(** combinations.scm:211-217  power-set; k is how many rounds of the loop are left *)
Fixpoint power_loop (k : nat) (set : list A) (i : nat) : list (list A) :=
  if length set <? i then []
  else match k with 0 => [] | Datatypes.S k => combinations set i ++ power_loop k set (i + 1) end.
Definition power_set (set : list A) := power_loop (length set + 1) set 0.
(** combinations.scm:220-224  power-set-for-each *)
Fixpoint power_for_each_loop (k : nat) (proc : list A -> S -> S) (set : list A) (i : nat) (s : S) : S :=
  if length set <? i then s
  else match k with 0 => s | Datatypes.S k => power_for_each_loop k proc set (i + 1) (combinations_for_each i proc set s) end.
Definition power_set_for_each (proc : list A -> S -> S) (set : list A) (s : S) : S := power_for_each_loop (length set + 1) proc set 0 s.
(** combinations.scm:246-252  cartesian-product *)
Fixpoint cartesian_product (lol : list (list A)) : list (list A) :=
  match lol with
  | [] => [[]]
  | l :: cdr => let rest := cartesian_product cdr in flat_map (fun x => map (fun sub_prod => x :: sub_prod) rest) l
  end.
(** combinations.scm:254-259  cartesian-product-for-each *)
Fixpoint cartesian_product_for_each (proc : list A -> S -> S) (lol : list (list A)) (s : S) : S :=
  match lol with
  | [] => proc [] s
  | l :: cdr => fold_left (fun s x => cartesian_product_for_each (fun sub_prod => proc (x :: sub_prod)) cdr s) l s
  end.
(** combinations.scm:269-281  cartesian-product-right and its for-each *)
Fixpoint cartesian_product_right (lol : list (list A)) : list (list A) :=
  match lol with
  | [] => [[]]
  | l :: cdr => let rest := cartesian_product_right cdr in flat_map (fun sub_prod => map (fun x => x :: sub_prod) l) rest
  end.
Fixpoint cartesian_product_right_for_each (proc : list A -> S -> S) (lol : list (list A)) (s : S) : S :=
  match lol with
  | [] => proc [] s
  | l :: cdr => cartesian_product_right_for_each (fun sub_prod s => fold_left (fun s x => proc (x :: sub_prod) s) l s) cdr s
  end.
End C.
