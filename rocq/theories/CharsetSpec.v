(** Sets of characters, as predicates. *)
From Coq Require Import ZArith List Bool Sorting.Sorted.
From Verif Require Import CharsetModel.
Import ListNotations.
Local Open Scope Z_scope.

Definition char (c : Z) : Prop := 0 <= c <= 0x10ffff.
Record sset := mkss { frozen : bool; mem : Z -> Prop }.
Definition srep (st : list sset) (i : nat) (s : sset) : list sset := firstn i st ++ s :: skipn (S i) st.

(** the characters in a list of ranges *)
Definition covers (l : list (Z * Z)) (c : Z) : Prop := exists x y, In (x, y) l /\ x <= c <= y.

(** [spec_step st o st' a]: what operation o may do in state st and answer *)
Inductive spec_step (st : list sset) : csop -> list sset -> csans -> Prop :=
| SNew : spec_step st New (st ++ [mkss false (fun _ => False)]) AUnit
| SAdd i s a b : nth_error st i = Some s -> frozen s = false -> char a -> char b ->
    spec_step st (AddRange i a b) (srep st i (mkss false (fun c => mem s c \/ a <= c <= b))) AUnit
| SUnion i j s u : nth_error st i = Some s -> nth_error st j = Some u -> frozen s = false ->
    spec_step st (Union i j) (srep st i (mkss false (fun c => mem s c \/ mem u c))) AUnit
| SCompl i s : nth_error st i = Some s -> frozen s = false ->
    spec_step st (Complement i) (srep st i (mkss false (fun c => ~ mem s c))) AUnit
| SCopy i s : nth_error st i = Some s ->
    spec_step st (Copy i) (st ++ [mkss false (mem s)]) AUnit
| SFreeze i s : nth_error st i = Some s ->
    spec_step st (Freeze i) (st ++ [mkss true (mem s)]) AUnit
| SFreezeX i s : nth_error st i = Some s ->
    spec_step st (FreezeX i) (srep st i (mkss true (mem s))) AUnit
| SContains i s c b : nth_error st i = Some s -> (b = true <-> char c /\ mem s c) ->
    spec_step st (Contains i c) st (ABool b)
| SEqual i j s u b : nth_error st i = Some s -> nth_error st j = Some u ->
    (b = true <-> forall c, char c -> (mem s c <-> mem u c)) ->
    spec_step st (Equal i j) st (ABool b)
| SSubset i j s u b : nth_error st i = Some s -> nth_error st j = Some u ->
    (b = true <-> forall c, char c -> mem s c -> mem u c) ->
    spec_step st (Subset i j) st (ABool b)
| SRanges i s l : nth_error st i = Some s -> (forall c, char c -> (covers l c <-> mem s c)) ->
    Forall (fun r => char (fst r) /\ char (snd r) /\ fst r <= snd r) l -> StronglySorted (fun p q => snd p < fst q) l ->
    spec_step st (Ranges i) st (ARanges l)
(** errors: a set that does not exist, modification of a frozen set, not a character *)
| SErrNone i o : nth_error st i = None ->
    (match o with
     | AddRange k _ _ | Complement k | Copy k | Freeze k | FreezeX k | Contains k _ | Ranges k => k = i
     | Union k j | Equal k j | Subset k j => k = i \/ j = i
     | New => False end) -> spec_step st o st AErr
| SErrFrozen i s o : nth_error st i = Some s -> frozen s = true ->
    (match o with AddRange k _ _ | Complement k | Union k _ => k = i | _ => False end) -> spec_step st o st AErr
| SErrRange i a b : ~ (char a /\ char b) -> spec_step st (AddRange i a b) st AErr.
Inductive spec_run : list sset -> list csop -> list csans -> Prop :=
| RNil st : spec_run st [] []
| RCons st o st' a ops l : spec_step st o st' a -> spec_run st' ops l -> spec_run st (o :: ops) (a :: l).
