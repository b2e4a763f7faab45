(** What barriers promise, in terms of their histories. *)
From Coq Require Import List Bool ZArith.
From Verif Require Import BarrierModel.
Import ListNotations.
Local Open Scope Z_scope.

(** nothing times out, no reset, no action raises *)
Definition calm_ev (e : ev) : Prop :=
  match e with ETimeout _ | EReset | EAction _ _ false => False | _ => True end.
Definition calm (h : list ev) : Prop := Forall calm_ev h.
(** the places given out in generation g, in order *)
Definition places (g : Z) (h : list ev) : list Z :=
  flat_map (fun e => match e with EArrive _ g' p => if Z.eqb g g' then [p] else [] | _ => [] end) h.
(** how often the action has run for generation g *)
Definition actions (g : Z) (h : list ev) : list tid :=
  flat_map (fun e => match e with EAction t g' _ => if Z.eqb g g' then [t] else [] | _ => [] end) h.
(** threshold - 1, threshold - 2, ..., n places *)
Definition countdown (threshold : Z) (n : nat) : list Z := map (fun i => threshold - 1 - Z.of_nat i) (seq 0 n).
