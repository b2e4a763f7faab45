(** What writing to a port means.

    Between two synchronisations (a seek) the file is [w_base] with the bytes [w_written]
    laid over it from offset [w_start]; others see at least the first [w_shown] of them and
    nothing else. *)
From Coq Require Import ZArith List Bool.
From Verif Require Import Utf8Spec StringSpec PortModel OutModel.
Import ListNotations.
Local Open Scope nat_scope.

Record wst := mkW { w_base : list Z; w_start : nat; w_written : list Z; w_shown : nat; w_col : Z; w_mode : bmode; w_closed : bool }.
Definition w_file (s : wst) : list Z := overlay (w_base s) (w_start s) (w_written s).
Definition w_visible (s : wst) : list Z := overlay (w_base s) (w_start s) (firstn (w_shown s) (w_written s)).
Definition w_pos (s : wst) : nat := w_start s + length (w_written s).
Definition wtarget (s : wst) (off : Z) (w : whence) : Z :=
  match w with SeekSet => off | SeekCur => Z.of_nat (w_pos s) + off | SeekEnd => Z.of_nat (length (w_file s)) + off end%Z.

(** the column after writing characters: how many follow the last newline *)
Fixpoint column_after (col : Z) (cs : list Z) : Z :=
  match cs with [] => col | c :: r => column_after (if (c =? 10)%Z then 0 else col + 1)%Z r end.

Section Spec.
(** whether write(2) takes all it is offered *)
Context (full : bool).
(** what becomes visible when [bs] has been written by an operation that stores a block
    ([block]) or one character or byte *)
Inductive kind := Byte | Char | Block.
Definition shown_ok (s : wst) (k : kind) (bs : list Z) (shown : nat) : Prop :=
  w_shown s <= shown /\ shown <= length (w_written s) + length bs /\
  (w_mode s = BNone -> k = Block \/ full = true -> shown = length (w_written s) + length bs) /\
  (w_mode s = BLine -> full = true -> k <> Byte -> forall i, nth_error bs i = Some 10%Z -> length (w_written s) + i < shown).
Definition wrote (s : wst) (bs : list Z) (shown : nat) (col : Z) : wst :=
  mkW (w_base s) (w_start s) (w_written s ++ bs) shown col (w_mode s) (w_closed s).
Definition synced (s : wst) : wst := mkW (w_base s) (w_start s) (w_written s) (length (w_written s)) (w_col s) (w_mode s) (w_closed s).
Definition moved_to (s : wst) (t : nat) : wst := mkW (w_file s) t [] 0 (w_col s) (w_mode s) (w_closed s).

Inductive wstep (s : wst) : oop -> oans -> wst -> Prop :=
| W_byte b k : shown_ok s Byte [b] k -> wstep s (WriteByte b) OUnit (wrote s [b] k (if (b =? 10)%Z then 0%Z else w_col s))
| W_char c bs k : valid_char c -> utf8_encodes c bs -> shown_ok s Char bs k -> wstep s (WriteChar c) OUnit (wrote s bs k (column_after (w_col s) [c]))
| W_string cs bs k : encodes_all cs bs -> shown_ok s Block bs k -> wstep s (WriteString cs) OUnit (wrote s bs k (column_after (w_col s) cs))
| W_bytes bs k col : shown_ok s Block bs k -> (forall cs, encodes_all cs bs -> col = column_after (w_col s) cs) ->
    wstep s (WriteBytes bs) OUnit (wrote s bs k col)
| W_flush : wstep s Flush OUnit (synced s)
| W_close : wstep s Close OUnit (mkW (w_base s) (w_start s) (w_written s) (length (w_written s)) (w_col s) (w_mode s) true)
| W_tell : wstep s OTell (OPos (Z.of_nat (w_pos s))) s
| W_seek_tell : wstep s (OSeek 0 SeekCur) (OPos (Z.of_nat (w_pos s))) s
| W_seek off w : (w = SeekCur -> off <> 0%Z) -> (0 <= wtarget s off w)%Z ->
    wstep s (OSeek off w) (OPos (wtarget s off w)) (moved_to s (Z.to_nat (wtarget s off w)))
| W_seek_fail off w : (wtarget s off w < 0)%Z -> wstep s (OSeek off w) OFalse (synced s)
| W_mode m : wstep s (SetMode m) OUnit (mkW (w_base s) (w_start s) (w_written s) (w_shown s) (w_col s) m (w_closed s))
| W_column : wstep s Column (OPos (w_col s)) s
| W_fresh_no : w_col s = 0%Z -> wstep s FreshLine OFalse s
| W_fresh k : w_col s <> 0%Z -> shown_ok s Char [10%Z] k -> wstep s FreshLine OTrue (wrote s [10%Z] k 0).

(** operations of an open port, on bytes and characters *)
Definition wallowed (s : wst) (o : oop) : Prop :=
  w_closed s = false /\
  match o with
  | WriteByte b => is_byte b
  | WriteChar c => valid_char c
  | WriteString cs => Forall valid_char cs
  | WriteBytes bs => Forall is_byte bs
  | _ => True
  end.
(** The assertion in write-char may fail unless write(2) takes everything and the buffer
    holds a character, or the character is a single byte. *)
Definition may_abort (roomy : bool) (o : oop) : Prop :=
  match o with WriteChar c => (128 <= c)%Z /\ (full && roomy)%bool = false | _ => False end.

(** The outcomes [rs], each with the file as seen from outside, are right. *)
Fixpoint wconforms (roomy : bool) (s : wst) (ops : list oop) (rs : list (Outcome.res (oans * list Z))) : Prop :=
  match ops with
  | [] => rs = []
  | o :: ops' =>
    wallowed s o ->
    match rs with
    | Outcome.Ok (a, vis) :: rs' => exists s', wstep s o a s' /\ vis = w_visible s' /\ wconforms roomy s' ops' rs'
    | [Outcome.Panic] => may_abort roomy o
    | _ => False
    end
  end.
End Spec.

(** ** String ports: the bytes written so far *)
Inductive sstep (bs : list Z) : sop -> sans -> list Z -> Prop :=
| T_byte b : sstep bs (SByte b) SUnit (bs ++ [b])
| T_char c e : utf8_encodes c e -> sstep bs (SChar c) SUnit (bs ++ e)
| T_string cs e : encodes_all cs e -> sstep bs (SString cs) SUnit (bs ++ e)
| T_bytes e : sstep bs (SBytes e) SUnit (bs ++ e)
| T_tell : sstep bs STell (SPos (length bs)) bs
| T_get cs : encodes_all cs bs -> sstep bs SGet (SStr bs (Some (length cs))) bs
| T_get_incomplete : (forall cs, ~ encodes_all cs bs) -> sstep bs SGet (SStr bs None) bs.
Definition sallowed (o : sop) : Prop :=
  match o with
  | SByte b => is_byte b
  | SChar c => valid_char c
  | SString cs => Forall valid_char cs
  | SBytes e => Forall is_byte e
  | _ => True
  end.
Fixpoint sconforms (bs : list Z) (ops : list sop) (rs : list (Outcome.res sans)) : Prop :=
  match ops with
  | [] => rs = []
  | o :: ops' =>
    sallowed o ->
    match rs with
    | Outcome.Ok a :: rs' => exists bs', sstep bs o a bs' /\ sconforms bs' ops' rs'
    | _ => False
    end
  end.
