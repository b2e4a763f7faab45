(** What semaphores and latches promise, in terms of their histories. *)
From Coq Require Import List Bool ZArith.
From Verif Require SemModel LatchModel.
Import ListNotations.
Local Open Scope Z_scope.

(** tokens released, tokens taken *)
Definition released (h : list SemModel.ev) : Z :=
  fold_right (fun e n => match e with SemModel.Released k => k + n | _ => n end) 0 h.
Definition acquired (h : list SemModel.ev) : Z :=
  fold_right (fun e n => match e with SemModel.Acquired _ => 1 + n | _ => n end) 0 h.

(** the sum of the decrements *)
Definition decs (h : list LatchModel.ev) : Z :=
  fold_right (fun e n => match e with LatchModel.Dec k _ => k + n | _ => n end) 0 h.
Definition cleared (h : list LatchModel.ev) : Prop := exists r, In (LatchModel.Clear r) h.
(** a latch of n is open after h: it was cleared, or at some moment the decrements added up to n *)
Definition opened (n : Z) (h : list LatchModel.ev) : Prop :=
  cleared h \/ exists h1 h2, h = h1 ++ h2 /\ n <= decs h1.
