(** What the input procedures of a port mean: a position in a fixed sequence of bytes.

    Besides the position the state records what peeking has fetched: [s_pend] bytes, or the
    end of the input ([s_eofp]).  The answers do not depend on these two; they only serve to
    state, in [allowed], the situations in which the code does not work (PortProps has a
    counterexample for each). *)
From Coq Require Import ZArith List Bool.
From Verif Require Import Utf8Spec StringSpec PortModel.
Import ListNotations.
Local Open Scope nat_scope.

Record sst := mkS { s_pos : nat; s_pend : nat; s_eofp : bool }.

Section Spec.
Context (all : list Z).
(** whether a block read must return all it can, or may stop early (non-full buffering) *)
Context (exact : bool).
(** whether positions beyond the end can be sought (files) *)
Context (beyond : bool).
Definition rest (s : sst) : list Z := skipn (s_pos s) all.
(** [bs] is the encoding of the character [c] *)
Definition char_bytes (c : Z) (bs : list Z) : Prop := valid_char c /\ utf8_encodes c bs.
Definition plain_line (l : list Z) : Prop := Forall (fun b => b <> 10%Z /\ b <> 13%Z) l.
(** the end of line that follows a line [l], if the bytes after it are [r] *)
Definition eol_ok (l eol r : list Z) : Prop :=
  (eol = [] /\ r = [] /\ l <> []) \/ eol = [10%Z] \/ eol = [13%Z; 10%Z] \/ (eol = [13%Z] /\ forall r', r <> 10%Z :: r').
Definition target (s : sst) (off : Z) (w : whence) : Z :=
  match w with SeekSet => off | SeekCur => Z.of_nat (s_pos s) + off | SeekEnd => Z.of_nat (length all) + off end%Z.
Definition can_seek (t : Z) : bool := (0 <=? t)%Z && (beyond || (t <=? Z.of_nat (length all))%Z).

Inductive spec_step (s : sst) : iop -> ians -> sst -> Prop :=
| S_read_char_eof : rest s = [] -> spec_step s ReadChar AEof (mkS (s_pos s) 0 false)
| S_read_char c bs r : char_bytes c bs -> rest s = bs ++ r -> spec_step s ReadChar (AChar c) (mkS (s_pos s + length bs) 0 false)
| S_peek_char_eof : rest s = [] -> spec_step s PeekChar AEof (mkS (s_pos s) 0 true)
| S_peek_char c bs r : char_bytes c bs -> rest s = bs ++ r -> spec_step s PeekChar (AChar c) (mkS (s_pos s) (length bs) false)
| S_read_byte_eof : rest s = [] -> spec_step s ReadByte AEof (mkS (s_pos s) 0 false)
| S_read_byte b r : rest s = b :: r -> spec_step s ReadByte (AByte b) (mkS (s_pos s + 1) (s_pend s - 1) false)
| S_peek_byte_eof : rest s = [] -> spec_step s PeekByte AEof (mkS (s_pos s) 0 true)
| S_peek_byte b r : rest s = b :: r -> spec_step s PeekByte (AByte b) (mkS (s_pos s) (Nat.max 1 (s_pend s)) false)
| S_read_line_eof : rest s = [] -> spec_step s ReadLine AEof (mkS (s_pos s) 0 false)
| S_read_line l eol r : rest s = l ++ eol ++ r -> plain_line l -> eol_ok l eol r ->
    spec_step s ReadLine (ABytes l)
      (mkS (s_pos s + length l + length eol) (match eol, r with [_], _ :: _ => if (hd 0 eol =? 13)%Z then 1 else 0 | _, _ => 0 end) false)
| S_read_string_0 : spec_step s (ReadString 0) (AChars []) s
| S_read_string_eof n : rest s = [] -> 0 < n -> spec_step s (ReadString n) AEof (mkS (s_pos s) 0 false)
| S_read_string n cs bs r : encodes_all cs bs -> rest s = bs ++ r -> cs <> [] -> length cs = n \/ (length cs < n /\ r = []) ->
    spec_step s (ReadString n) (AChars cs) (mkS (s_pos s + length bs) 0 false)
| S_read_uvector_eof n : rest s = [] -> 0 < n -> spec_step s (ReadUvector n) AEof (mkS (s_pos s) 0 false)
| S_read_uvector n k : 0 < k -> k <= n -> k <= length (rest s) -> (exact = true -> k = Nat.min n (length (rest s))) ->
    spec_step s (ReadUvector n) (ABytes (firstn k (rest s))) (mkS (s_pos s + k) (s_pend s - k) false)
| S_tell : spec_step s PortTell (APos (Z.of_nat (s_pos s))) s
| S_seek_tell : spec_step s (PortSeek 0 SeekCur) (APos (Z.of_nat (s_pos s))) s
| S_seek off w : (w = SeekCur -> off <> 0%Z) -> can_seek (target s off w) = true ->
    spec_step s (PortSeek off w) (APos (target s off w)) (mkS (Z.to_nat (target s off w)) 0 false)
| S_seek_fail off w : can_seek (target s off w) = false -> spec_step s (PortSeek off w) AFalse (mkS (s_pos s) 0 false).

(** The situations covered.  Characters are only read where there is one (or the end); a
    block is not read when all that is left has been peeked at and is shorter than the
    block, nor after the end has been peeked at; no position is asked for after the end has
    been peeked at; no seek fails after something has been peeked at. *)
Definition allowed (s : sst) (o : iop) : Prop :=
  match o with
  | ReadChar | PeekChar => rest s = [] \/ exists c bs r, char_bytes c bs /\ rest s = bs ++ r
  | ReadString n => exists cs bs r, encodes_all cs bs /\ rest s = bs ++ r /\ (length cs = n \/ (length cs < n /\ r = []))
  | ReadUvector n => 0 < n /\ s_eofp s = false /\ (n <= s_pend s \/ s_pend s = 0 \/ s_pend s < length (rest s))
  | PortTell => s_eofp s = false
  | PortSeek off w => (w = SeekCur -> s_eofp s = false) /\ (can_seek (target s off w) = true \/ s_pend s = 0)
  | _ => True
  end.

(** The outcomes [rs] of the operations [ops] are right as long as the operations are allowed. *)
Fixpoint conforms (s : sst) (ops : list iop) (rs : list (Outcome.res ians)) : Prop :=
  match ops with
  | [] => rs = []
  | o :: ops' =>
    allowed s o ->
    match rs with
    | Outcome.Ok a :: rs' => exists s', spec_step s o a s' /\ conforms s' ops' rs'
    | _ => False
    end
  end.
End Spec.
