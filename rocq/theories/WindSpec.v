(** What dynamic-wind should do. *)
From Coq Require Import List Bool PeanoNat.
From Verif Require Import Outcome WindModel.
Import ListNotations.
(** The extents a history of events leaves us in: an extent is entered only from outside, and only the
    innermost one is left. *)
Fixpoint replay (es : list ev) (c : list nat) : option (list nat) :=
  match es with
  | [] => Some c
  | RunBefore _ :: r => replay r c
  | Entered e :: r => if in_dec Nat.eq_dec e c then None else replay r (e :: c)
  | Left e :: r => match c with x :: c' => if Nat.eq_dec x e then replay r c' else None | [] => None end
  end.
(** The dynamic-wind bodies a continuation is inside of, innermost first. *)
Fixpoint extents (k : list frame) : list nat :=
  match k with [] => [] | FBody e :: r => e :: extents r | _ :: r => extents r end.
(** no jump is under way in the continuation *)
Fixpoint settled (k : list frame) : bool :=
  match k with [] => true | FThrow _ _ _ _ :: _ | FAbort _ _ :: _ => false | _ :: r => settled r end.
(** user code does not abort to a prompt that is below an unfinished jump to a full continuation *)
Fixpoint prompt_visible (tag : nat) (k : list frame) : bool :=
  match k with
  | [] => true
  | FPrompt t _ :: r => if Nat.eqb t tag then true else prompt_visible tag r
  | FThrow _ _ _ _ :: _ => false
  | _ :: r => prompt_visible tag r
  end.
Fixpoint orderly (ls : list label) (s : st) : bool :=
  match ls with
  | [] => true
  | l :: r => (match l with LAbort tag => prompt_visible tag (cont s) | _ => true end)
              && match step l s with Ok s' => orderly r s' | _ => true end
  end.
