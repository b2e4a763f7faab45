(** What a regular expression matches: a relation between character positions of the text [w]. *)
From Coq Require Import List ZArith Bool.
From Verif Require Import Utf8Model Utf8Spec RegexModel.
Import ListNotations.
Local Open Scope Z_scope.
Definition in_ranges (l : list (Z * Z)) (c : Z) : Prop := exists lo hi, In (lo, hi) l /\ lo <= c <= hi.
Definition in_class (sets : list cset) (k : nat) (c : Z) : Prop := in_ranges (ranges (getset sets k)) c.
(** Word constituents of Gauche's \b: ASCII letters and digits, and everything that is not ASCII. *)
Definition wordc (c : Z) : Prop := 128 <= c \/ 48 <= c <= 57 \/ 65 <= c <= 90 \/ 97 <= c <= 122.
Definition at_ (w : list Z) (i : nat) (c : Z) : Prop := nth_error w i = Some c.
Definition word_edge (w : list Z) (i : nat) : Prop :=
  i = O \/ i = length w \/ exists c d, at_ w (pred i) c /\ at_ w i d /\ ((wordc c /\ ~ wordc d) \/ (~ wordc c /\ wordc d)).
Definition newline_at (w : list Z) (i : nat) : Prop := at_ w i 10 \/ at_ w i 13.
Fixpoint iter (R : nat -> nat -> Prop) (k : nat) (i j : nat) : Prop :=
  match k with O => i = j | S k' => exists h, R i h /\ iter R k' h j end.
Section Matching.
  Variables (w : list Z) (sets : list cset) (multi : bool).
  Fixpoint mt (r : re) (i j : nat) {struct r} : Prop :=
    let mts := fix mts (l : list re) (i j : nat) {struct l} : Prop :=
      match l with [] => i = j | x :: l' => exists h, mt x i h /\ mts l' h j end in
    match r with
    | Chr c => at_ w i c /\ j = S i
    | CSet k => exists c, at_ w i c /\ in_class sets k c /\ j = S i
    | Comp k => exists c, at_ w i c /\ ~ in_class sets k c /\ j = S i
    | Any => exists c, at_ w i c /\ j = S i
    | Bos => i = O /\ j = i
    | Eos => i = length w /\ j = i
    | Bol => (i = O \/ (multi = true /\ newline_at w (pred i))) /\ j = i
    | Eol => (i = length w \/ (multi = true /\ newline_at w i)) /\ j = i
    | Wb => word_edge w i /\ j = i
    | Nwb => ~ word_edge w i /\ j = i
    | Seq l | Cased l | Grp _ l => mts l i j
    | Alt l => (fix any (l : list re) : Prop := match l with [] => False | x :: l' => mt x i j \/ any l' end) l
    | Rep _ m n l => exists k, (m <= k)%nat /\ match n with Some n' => (k <= n')%nat | None => True end /\ iter (mts l) k i j
    | Look false l => (exists h, mts l i h) /\ j = i
    | Look true l => ~ (exists h, mts l i h) /\ j = i
    | Uncase _ | Once _ | Backref _ => False              (* outside the scope of the theorems *)
    end.
  Fixpoint mts (l : list re) (i j : nat) {struct l} : Prop :=
    match l with [] => i = j | x :: l' => exists h, mt x i h /\ mts l' h j end.
End Matching.
(** The answer of a search over the whole text: the result is a match at the leftmost place where there is one, or no match
    if there is none.  Group 0 is the text matched; any other group is unset or a text inside it, matched by one of the
    bodies of the group.
    Positions in the result are byte offsets: [byte_of] of a character position. *)
Definition byte_of (w : list Z) (i : nat) : nat := length (concat (map char_put (firstn i w))).
Definition span (w : list Z) (i j : nat) : option nat * option nat := (Some (byte_of w i), Some (byte_of w j)).
Definition search_result (w : list Z) (sets : list cset) (multi : bool) (l : list re) (bodies : list (nat * list re)) (res : result) : Prop :=
  (exists m i j, res = RMatch m /\ (i <= j <= length w)%nat /\ mts w sets multi l i j /\ m O = span w i j /\
     (forall i' j', (i' < i)%nat -> ~ mts w sets multi l i' j') /\
     forall g, g <> O -> m g = (None, None) \/ exists b i' j', In (g, b) bodies /\ mts w sets multi b i' j' /\ (i <= i' /\ i' <= j' /\ j' <= j)%nat /\ m g = span w i' j') \/
  (res = RNone /\ forall i j, (i <= length w)%nat -> ~ mts w sets multi l i j).
