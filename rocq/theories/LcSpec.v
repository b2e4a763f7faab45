(** Common subsequences, edit scripts. *)
From Coq Require Import List Bool Arith ZArith.
From Verif Require Import LcModel.
Import ListNotations.
Local Open Scope Z_scope.

Section S.
Context {A : Type}.
Variable eq : A -> A -> bool.
(** a pairing of elements of a with elements of b, in the order of both: (element of a, position in a, position in b) *)
Fixpoint increasing (i j : Z) (l : list (A * Z * Z)) : Prop :=
  match l with [] => True | (_, x, y) :: r => i <= x /\ j <= y /\ increasing (x + 1) (y + 1) r end.
Definition pairing (a b : list A) (l : list (A * Z * Z)) : Prop :=
  increasing 0 0 l /\
  forall e x y, In (e, x, y) l -> nth_error a (Z.to_nat x) = Some e /\ exists e', nth_error b (Z.to_nat y) = Some e' /\ eq e e' = true.
Inductive subseq : list A -> list A -> Prop :=
| sub_nil l : subseq [] l
| sub_keep x s l : subseq s l -> subseq (x :: s) (x :: l)
| sub_skip x s l : subseq s l -> subseq s (x :: l).
(** edit scripts *)
Inductive cmd := Del (e : A) | Ins (e : A) | Keep (e : A).
(** the script turns a into b: a kept element stands for one of b that eq relates it to *)
Inductive turns : list cmd -> list A -> list A -> Prop :=
| t_nil : turns [] [] []
| t_del e s a b : turns s a b -> turns (Del e :: s) (e :: a) b
| t_ins e s a b : turns s a b -> turns (Ins e :: s) a (e :: b)
| t_keep e e' s a b : eq e e' = true -> turns s a b -> turns (Keep e :: s) (e :: a) (e' :: b).
Definition changes (s : list cmd) : nat := length (filter (fun c => match c with Keep _ => false | _ => true end) s).
Definition run {S} (fa fb fc : A -> S -> S) (s : list cmd) (seed : S) : S :=
  fold_left (fun st c => match c with Del e => fa e st | Ins e => fb e st | Keep e => fc e st end) s seed.
(** edit lists: the elements of l at positions other than those in idx *)
Definition others (idx : list Z) (l : list A) : list A :=
  map snd (filter (fun p => negb (existsb (Z.eqb (Z.of_nat (fst p))) idx)) (combine (seq 0 (length l)) l)).
Definition removed (es : list (edit A)) : list Z := flat_map (fun e => match e with Rm i _ => [i] | Ad _ _ => [] end) es.
Definition added (es : list (edit A)) : list Z := flat_map (fun e => match e with Ad i _ => [i] | Rm _ _ => [] end) es.
End S.
Arguments cmd : clear implicits.
Section N.
Context {A : Type}.
(** an edit list is the changes of a script with their positions, the ones between two kept elements together *)
Fixpoint number (i j : Z) (s : list (cmd A)) : list (option (edit A)) :=
  match s with
  | [] => []
  | Del e :: r => Some (Rm i e) :: number (i + 1) j r
  | Ins e :: r => Some (Ad j e) :: number i (j + 1) r
  | Keep _ :: r => None :: number (i + 1) (j + 1) r
  end.
Definition nonempty {B} (l : list B) : list (list B) := match l with [] => [] | _ => [l] end.
Fixpoint together {B} (cur : list B) (l : list (option B)) : list (list B) :=
  match l with
  | [] => nonempty cur
  | None :: r => nonempty cur ++ together [] r
  | Some e :: r => together (cur ++ [e]) r
  end.
End N.
