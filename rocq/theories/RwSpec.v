(** What writing and reading back should do, said without the writer or the reader. *)
From Coq Require Import List Bool ZArith.
From Verif Require Import BignumModel IntModel IntSpec IntTextProofs RwModel.
Import ListNotations.
Local Open Scope Z_scope.

(** code points and bytes *)
Definition character (c : Z) : Prop := 0 <= c <= 1114111.
Definition byte (c : Z) : Prop := 0 <= c <= 255.

(** the facts of the Unicode character database that are needed: the white space
    characters outside ASCII are of category Zs, Zl or Zp *)
Definition unicode_spaces (gc : Z -> cat) : Prop :=
  (forall c, c = 160 \/ c = 5760 \/ 8192 <= c <= 8202 \/ c = 8239 \/ c = 8287 \/ c = 12288 -> gc c = Zs)
  /\ gc 8232 = Zl /\ gc 8233 = Zp.

(** R7RS 7.1.1: a datum ends before a delimiter: white space, a parenthesis, a double quote, a
    semicolon, or the end of the input.  (R7RS also has the vertical bar; the reader takes
    a bar right after a colon for the name of a keyword, so it is left out here.) *)
Definition delimiters : list Z := [32; 9; 10; 13; 40; 41; 34; 59].
Definition delimited (rest : list Z) : Prop := match rest with [] => True | c :: _ => In c delimiters end.

(** names without a decimal digit (Nd), spacing mark (Mc) or enclosing mark (Me) outside ASCII *)
Definition odd_char (gc : Z -> cat) (c : Z) : Prop := 128 <= c /\ c <> 8204 /\ c <> 8205 /\ (gc c = Nd \/ gc c = Mc \/ gc c = Me).
Definition plain (gc : Z -> cat) (name : list Z) : Prop := Forall (fun c => ~ odd_char gc c) name.

(** the data the theorem is about; the bound on integers is that of C10 *)
Fixpoint good (gc : Z -> cat) (d : datum) : Prop :=
  match d with
  | DNil | DTrue | DFalse => True
  | DInt n => canonical n /\ Z.abs (int_of n) < RLIM
  | DChar c => character c
  | DStr s => Forall character s
  | DBytes s => Forall byte s
  | DSym name => Forall character name /\ plain gc name
  | DPair a b => good gc a /\ good gc b
  | DVec xs => (fix all (l : list datum) : Prop := match l with [] => True | x :: t => good gc x /\ all t end) xs
  end.
(** how deep lists and vectors are nested (cdrs do not count) *)
Fixpoint depth (d : datum) : nat :=
  match d with
  | DPair a b => Nat.max (S (depth a)) (depth b)
  | DVec xs => S ((fix deepest (l : list datum) : nat := match l with [] => O | x :: t => Nat.max (depth x) (deepest t) end) xs)
  | _ => O
  end.
