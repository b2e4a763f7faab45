(** Outcomes of C functions: a normal result, a Scheme-level error raised by
    Scm_Error, an aborted process (SCM_ASSERT / Scm_Panic), or undefined
    behaviour of C (out-of-bounds access, NULL dereference ...). *)
Inductive res (A : Type) : Type :=
| Ok (a : A)
| Err
| Panic
| UB.
Arguments Ok {A} a.
Arguments Err {A}.
Arguments Panic {A}.
Arguments UB {A}.

Definition bind {A B} (x : res A) (f : A -> res B) : res B :=
  match x with Ok a => f a | Err => Err | Panic => Panic | UB => UB end.
Notation "'do' x <- e ; f" := (bind e (fun x => f))
  (at level 200, x name, e at level 100, f at level 200, right associativity).

Definition of_opt {A} (o : option A) : res A :=
  match o with Some a => Ok a | None => UB end.

(** src/gauche.h:1379  SCM_ASSERT(expr): the process is aborted if false. *)
Definition assert {A} (b : bool) (k : res A) : res A := if b then k else Panic.
