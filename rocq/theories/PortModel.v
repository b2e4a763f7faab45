(** Input ports: src/portapi.c (the common API with its one-character pushback) on
    src/port.c (buffered file ports, string ports).

    A port is a snapshot of ScmPortImpl.  The file (or string) behind it is the byte list
    [p_all]; its contents do not change.  For a file port [p_pos] is the offset of the file
    descriptor and [p_buf] the bytes between buf.current and buf.end; the filler hands over
    any number of bytes between 1 and what was asked for and is left, chosen by [p_oracle];
    buf.ready answers what [p_ready] says.  For a string port [p_pos] is istr.current -
    istr.start and [p_buf] is empty.  Line, byte and column counters, locking, linked output
    ports, closing and virtual ports are left out.  Writing outside an array is UB. *)
From Coq Require Import ZArith List Bool.
From Verif Require Import Outcome Utf8Model.
Import ListNotations.
Local Open Scope nat_scope.

Inductive bmode := BFull | BLine | BNone.
Inductive pkind := KFile (m : bmode) (size : nat) | KStr.
(** SCM_CHAR_INVALID (src/gauche.h:397) and EOF *)
Definition CH_INVALID : Z := (-2)%Z.
Definition C_EOF : Z := (-1)%Z.
(** SCM_CHAR_MAX_BYTES, src/gauche/char_utf_8.h:65 *)
Definition MAX_BYTES : nat := 6.

(** src/gauche/priv/portP.h:59-100 struct ScmPortImplRec *)
Record port := mkPort {
  p_kind : pkind; p_all : list Z; p_pos : nat; p_buf : list Z;
  p_scr : list Z;           (** the first scrcnt bytes of scratch *)
  p_ung : Z;                (** ungotten *)
  p_oracle : nat -> nat; p_ready : nat -> bool; p_tick : nat }.
Definition set_buf (p : port) (pos : nat) (buf : list Z) (tick : nat) : port :=
  mkPort (p_kind p) (p_all p) pos buf (p_scr p) (p_ung p) (p_oracle p) (p_ready p) tick.
Definition set_scr (p : port) (s : list Z) : port :=
  mkPort (p_kind p) (p_all p) (p_pos p) (p_buf p) s (p_ung p) (p_oracle p) (p_ready p) (p_tick p).
Definition set_ung (p : port) (c : Z) : port :=
  mkPort (p_kind p) (p_all p) (p_pos p) (p_buf p) (p_scr p) c (p_oracle p) (p_ready p) (p_tick p).
(** port.c:273-300 make_port; port.c:1056-1115, 1655-1667 *)
Definition open_port (k : pkind) (all : list Z) (oracle : nat -> nat) (ready : nat -> bool) : port :=
  mkPort k all 0 [] [] CH_INVALID oracle ready 0.
(** storing a whole scratch array: only MAX_BYTES bytes fit *)
Definition put_scr (p : port) (s : list Z) : res port :=
  if length s <=? MAX_BYTES then Ok (set_scr p s) else UB.

(** ** The buffered port, port.c:1180-1275 *)

(** A filler (file_filler, port.c:1471-1493): asked for [cnt] bytes it stores at least one
    after buf.end unless the file is exhausted. *)
Definition filler (p : port) (size cnt : nat) : res (port * nat) :=
  let left := length (p_all p) - p_pos p in
  let r := if (cnt =? 0) || (left =? 0) then 0 else Nat.min (Nat.max 1 (p_oracle p (p_tick p))) (Nat.min cnt left) in
  if length (p_buf p) + r <=? size then
    Ok (set_buf p (p_pos p + r) (p_buf p ++ firstn r (skipn (p_pos p) (p_all p))) (S (p_tick p)), r)
  else UB.
(** the loop of bufport_fill, port.c:1205-1210; cut after [fuel] rounds (UB) *)
Fixpoint fill_loop (fuel : nat) (p : port) (size toread nread min : nat) (allow_less : bool) : res (port * nat) :=
  match fuel with
  | O => UB
  | S f =>
    do x <- filler p size (toread - nread);
    if snd x =? 0 then Ok (fst x, nread)
    else if negb allow_less && (nread + snd x <? min) then fill_loop f (fst x) size toread (nread + snd x) min allow_less
    else Ok (fst x, nread + snd x)
  end.
(** port.c:1180-1212 bufport_fill.  The unread bytes are moved to the start of the buffer,
    so that the room is size minus their number. *)
Definition bufport_fill (p : port) (m : bmode) (size min : nat) (allow_less : bool) : res (port * nat) :=
  let room := size - length (p_buf p) in
  let min := if min =? 0 then room else min in
  let toread := match m with BNone => min | _ => room end in
  fill_loop (S min) p size toread 0 min allow_less.
(** port.c:1238-1273 the loop of bufport_read: the bytes stored at dst *)
Fixpoint read_loop (fuel : nat) (p : port) (m : bmode) (size : nat) (acc : list Z) (siz : nat) : res (port * list Z) :=
  match fuel with
  | O => UB
  | S f =>
    if siz =? 0 then Ok (p, acc)
    else
      let stop := negb (length acc =? 0) && match m with BFull => false | _ => negb (p_ready p (p_tick p)) end in
      if stop then Ok (p, acc)
      else
        do x <- bufport_fill p m size (Nat.min siz size) true;
        let p1 := fst x in let r := snd x in
        if r =? 0 then Ok (p1, acc)
        else if siz <=? r then
          Ok (set_buf p1 (p_pos p1) (skipn siz (p_buf p1)) (p_tick p1), acc ++ firstn siz (p_buf p1))
        else read_loop f (set_buf p1 (p_pos p1) (skipn r (p_buf p1)) (p_tick p1)) m size (acc ++ firstn r (p_buf p1)) (siz - r)
  end.
(** port.c:1226-1275 bufport_read *)
Definition bufport_read (p : port) (m : bmode) (size siz : nat) : res (port * list Z) :=
  let req := Nat.min siz (length (p_buf p)) in
  read_loop (S siz) (set_buf p (p_pos p) (skipn req (p_buf p)) (p_tick p)) m size (firstn req (p_buf p)) (siz - req).

(** ** Bytes, portapi.c:510-640 *)

(** portapi.c:535-541 getb_scratch *)
Definition getb_scratch (p : port) : res (port * Z) :=
  match p_scr p with b :: s => Ok (set_scr p s, b) | [] => UB end.
(** portapi.c:543-550 getb_ungotten *)
Definition getb_ungotten (p : port) : res (port * Z) :=
  do p1 <- put_scr p (char_put (p_ung p)); getb_scratch (set_ung p1 CH_INVALID).
(** portapi.c:597-615, the part of Getb that reads the source *)
Definition getb_source (p : port) : res (port * Z) :=
  match p_kind p with
  | KFile m size =>
    do x <- (match p_buf p with [] => bufport_fill p m size 1 false | _ => Ok (p, 1) end);
    if snd x =? 0 then Ok (fst x, C_EOF)
    else match p_buf (fst x) with
         | b :: buf => Ok (set_buf (fst x) (p_pos (fst x)) buf (p_tick (fst x)), b)
         | [] => UB
         end
  | KStr =>
    match nth_error (p_all p) (p_pos p) with
    | Some b => Ok (set_buf p (S (p_pos p)) [] (p_tick p), b)
    | None => Ok (p, C_EOF)
    end
  end.
(** portapi.c:556-627 Scm_Getb; C_EOF at the end *)
Definition getb (p : port) : res (port * Z) :=
  match p_scr p with
  | _ :: _ => getb_scratch p
  | [] =>
    if negb (p_ung p =? CH_INVALID)%Z then
      if (p_ung p =? C_EOF)%Z then Ok (set_ung p CH_INVALID, C_EOF) else getb_ungotten p
    else getb_source p
  end.
(** portapi.c:442-461 Scm_Ungetb *)
Definition ungetb (p : port) (b : Z) : res port :=
  if negb (p_ung p =? CH_INVALID)%Z || (MAX_BYTES <=? length (p_scr p)) then Err
  else put_scr p (p_scr p ++ [b]).
(** portapi.c:463-498 Scm_Peekb *)
Definition peekb (p : port) : res (port * Z) :=
  match p_scr p with
  | b :: _ => Ok (p, b)
  | [] =>
    do x <- getb p;
    let p1 := fst x in let b := snd x in
    if (b =? C_EOF)%Z then Ok (set_ung p1 C_EOF, b)
    else if (0 <=? b)%Z then
      assert (length (p_scr p1) <? MAX_BYTES) (do p2 <- put_scr p1 (b :: p_scr p1); Ok (p2, b))
    else Ok (p1, b)
  end.

(** ** Characters, portapi.c:629-812 *)

(** SCM_CHAR_GET into an int; bytes outside the array are UB *)
Definition char_get_int (cp : list Z) : res Z :=
  match char_get cp with Ch c => Ok c | Invalid => Ok CH_INVALID | Oob => UB end.
(** portapi.c:649-657 the loop of getc_scratch *)
Fixpoint scratch_loop (n : nat) (p : port) (tbuf : list Z) : res (port * list Z) :=
  match n with
  | O => Ok (p, tbuf)
  | S n' => do x <- getb p; if (snd x =? C_EOF)%Z then Err else scratch_loop n' (fst x) (tbuf ++ [snd x])
  end.
(** portapi.c:636-671 getc_scratch *)
Definition getc_scratch (p : port) : res (port * Z) :=
  let nb := Z.to_nat (nfollows (hd 0%Z (p_scr p))) in
  do x <- scratch_loop (S nb - length (p_scr p)) (set_scr p []) (p_scr p);
  let p1 := fst x in let tbuf := snd x in
  do ch <- char_get_int tbuf;
  if (ch =? CH_INVALID)%Z then
    do p2 <- put_scr p1 (firstn nb (skipn 1 tbuf)); Ok (p2, Z.land (hd 0%Z tbuf) 255)
  else Ok (p1, ch).
(** portapi.c:720-739 collecting the rest of a character over several fills *)
Fixpoint rest_loop (fuel : nat) (p : port) (m : bmode) (size rest : nat) : res port :=
  match fuel with
  | O => UB
  | S f =>
    do x <- bufport_fill p m size rest false;
    let p1 := fst x in let filled := snd x in
    if filled =? 0 then Err
    else if rest <=? filled then
      do p2 <- put_scr p1 (p_scr p1 ++ firstn rest (p_buf p1));
      Ok (set_buf p2 (p_pos p2) (skipn rest (p_buf p2)) (p_tick p2))
    else
      do p2 <- put_scr p1 (p_scr p1 ++ firstn filled (p_buf p1));
      rest_loop f (set_buf p2 (p_pos p2) [] (p_tick p2)) m size (rest - filled)
  end.
(** portapi.c:697-766 Getc on a file port *)
Definition getc_file (p : port) (m : bmode) (size : nat) : res (port * Z) :=
  do x <- (match p_buf p with [] => bufport_fill p m size 1 false | _ => Ok (p, 1) end);
  let p1 := fst x in
  if snd x =? 0 then Ok (p1, C_EOF)
  else match p_buf p1 with
       | [] => UB
       | first :: buf =>
         let nb := Z.to_nat (nfollows first) in
         if nb =? 0 then Ok (set_buf p1 (p_pos p1) buf (p_tick p1), first)
         else if length buf <? nb then
           do p2 <- put_scr p1 (first :: buf);
           do p3 <- rest_loop (S nb) (set_buf p2 (p_pos p2) [] (p_tick p2)) m size (nb + 1 - length (p_scr p2));
           do c <- char_get_int (p_scr p3);
           Ok (set_scr p3 [], c)
         else
           do c <- char_get_int (first :: buf);
           Ok (set_buf p1 (p_pos p1) (skipn nb buf) (p_tick p1), c)
       end.
(** portapi.c:767-792 Getc on a string port *)
Definition getc_str (p : port) : res (port * Z) :=
  match nth_error (p_all p) (p_pos p) with
  | None => Ok (p, C_EOF)
  | Some first =>
    let nb := Z.to_nat (nfollows first) in
    if nb =? 0 then Ok (set_buf p (S (p_pos p)) [] (p_tick p), first)
    else if length (p_all p) <? S (p_pos p) + nb then Err
    else do c <- char_get_int (skipn (p_pos p) (p_all p));
         Ok (set_buf p (S (p_pos p) + nb) [] (p_tick p), c)
  end.
(** portapi.c:673-812 Scm_Getc *)
Definition getc (p : port) : res (port * Z) :=
  match p_scr p with
  | _ :: _ => getc_scratch p
  | [] =>
    if negb (p_ung p =? CH_INVALID)%Z then Ok (set_ung p CH_INVALID, p_ung p)
    else match p_kind p with KFile m size => getc_file p m size | KStr => getc_str p end
  end.
(** portapi.c:393-421 Scm_Peekc (not a procedural port) *)
Definition peekc (p : port) : res (port * Z) :=
  if (p_ung p =? CH_INVALID)%Z then do x <- getc p; Ok (set_ung (fst x) (snd x), snd x)
  else Ok (p, p_ung p).

(** ** Blocks, portapi.c:816-922.  The result is the bytes stored and the count returned. *)

(** portapi.c:846-860 getz_istr, 896-910 *)
Definition getz_source (p : port) (n : nat) : res (port * list Z * Z) :=
  match p_kind p with
  | KFile m size =>
    do x <- bufport_read p m size n;
    Ok (fst x, snd x, if (length (snd x) =? 0) && negb (n =? 0) then C_EOF else Z.of_nat (length (snd x)))
  | KStr =>
    let left := length (p_all p) - p_pos p in
    if left <=? n then
      if left =? 0 then Ok (p, [], C_EOF)
      else Ok (set_buf p (length (p_all p)) [] (p_tick p), skipn (p_pos p) (p_all p), Z.of_nat left)
    else Ok (set_buf p (p_pos p + n) [] (p_tick p), firstn n (skipn (p_pos p) (p_all p)), Z.of_nat n)
  end.
(** portapi.c:823-842 getz_scratch: the recursive Scm_Getz finds no pushback *)
Definition getz_scratch (p : port) (n : nat) : res (port * list Z * Z) :=
  if n <=? length (p_scr p) then Ok (set_scr p (skipn n (p_scr p)), firstn n (p_scr p), Z.of_nat n)
  else
    do x <- getz_source (set_scr p []) (n - length (p_scr p));
    Ok (fst (fst x), p_scr p ++ snd (fst x), (Z.of_nat (length (p_scr p)) + snd x)%Z).
(** portapi.c:864-920 Scm_Getz *)
Definition getz (p : port) (n : nat) : res (port * list Z * Z) :=
  match p_scr p with
  | _ :: _ => getz_scratch p n
  | [] =>
    if negb (p_ung p =? CH_INVALID)%Z then
      do p1 <- put_scr p (char_put (p_ung p)); getz_scratch (set_ung p1 CH_INVALID) n
    else getz_source p n
  end.

(** ** Lines, portapi.c:945-967 readline_body; None = EOF object; cut after [fuel] bytes (UB) *)
Fixpoint readline_loop (fuel : nat) (p : port) (b1 : Z) (ds : list Z) : res (port * list Z) :=
  match fuel with
  | O => UB
  | S f =>
    if (b1 =? C_EOF)%Z then Ok (p, ds)
    else if (b1 =? 10)%Z then Ok (p, ds)
    else if (b1 =? 13)%Z then
      do x <- getb p;
      if (snd x =? C_EOF)%Z || (snd x =? 10)%Z then Ok (fst x, ds)
      else do p1 <- ungetb (fst x) (snd x); Ok (p1, ds)
    else do x <- getb p; readline_loop f (fst x) (snd x) (ds ++ [b1])
  end.
Definition readline (p : port) : res (port * option (list Z)) :=
  do x <- getb p;
  if (snd x =? C_EOF)%Z then Ok (fst x, None)
  else do y <- readline_loop (length (p_all p) + 8) (fst x) (snd x) []; Ok (fst y, Some (snd y)).

(** libio.scm:621-632 read-string; the characters read *)
Fixpoint readstring_loop (n : nat) (p : port) (o : list Z) : res (port * option (list Z)) :=
  match n with
  | O => Ok (p, Some o)
  | S n' =>
    do x <- getc p;
    if (snd x =? C_EOF)%Z then Ok (fst x, match o with [] => None | _ => Some o end)
    else readstring_loop n' (fst x) (o ++ [snd x])
  end.

(** ** Positions, portapi.c:1071-1344 *)

(** portapi.c:1078-1086 port_pending_bytes *)
Definition pending_bytes (p : port) : Z :=
  (Z.of_nat (length (p_scr p)) + if (p_ung p =? CH_INVALID)%Z then 0 else nbytes (p_ung p))%Z.
(** portapi.c:1115-1200 Scm_GetPortPosition with a seeker (lseek) *)
Definition tell (p : port) : Z :=
  let r := match p_kind p with KFile _ _ => Z.of_nat (p_pos p) - Z.of_nat (length (p_buf p)) | KStr => Z.of_nat (p_pos p) end%Z in
  if (0 <? pending_bytes p)%Z then (r - pending_bytes p)%Z else r.
Inductive whence := SeekSet | SeekCur | SeekEnd.
(** portapi.c:1205-1307 set_port_position, 1089-1111 seek_istr; None = #f.  lseek fails
    exactly for a negative target. *)
Definition set_position (p : port) (off : Z) (w : whence) : port * option Z :=
  let pending := pending_bytes p in
  let p1 := set_ung (set_scr p []) CH_INVALID in
  let off1 := match w with SeekCur => (off - pending)%Z | _ => off end in
  let len := Z.of_nat (length (p_all p)) in
  match p_kind p with
  | KFile _ _ =>
    let off2 := match w with SeekCur => (off1 - Z.of_nat (length (p_buf p)))%Z | _ => off1 end in
    let t := match w with SeekSet => off2 | SeekCur => (Z.of_nat (p_pos p) + off2)%Z | SeekEnd => (len + off2)%Z end in
    if (t <? 0)%Z then (p1, None)
    else (set_buf p1 (Z.to_nat t) [] (p_tick p1), Some t)
  | KStr =>
    let t := match w with SeekSet => off1 | SeekCur => (off1 + Z.of_nat (p_pos p))%Z | SeekEnd => (off1 + len)%Z end in
    if (t <? 0)%Z || (len <? t)%Z then (p1, None)
    else (set_buf p1 (Z.to_nat t) [] (p_tick p1), Some t)
  end.
(** portapi.c:1327-1340 Scm_PortSeek *)
Definition seek (p : port) (off : Z) (w : whence) : port * option Z :=
  match w with
  | SeekCur => if (off =? 0)%Z then (p, Some (tell p)) else set_position p off w
  | _ => set_position p off w
  end.

(** ** Scheme procedures, libio.scm:431-437, 571-632; uvector.scm:374-395 *)
Inductive iop := ReadChar | PeekChar | ReadByte | PeekByte | ReadLine | ReadString (n : nat) | ReadUvector (n : nat)
               | PortTell | PortSeek (off : Z) (w : whence).
Inductive ians := AEof | AChar (c : Z) | AByte (b : Z) | ABytes (l : list Z) | AChars (l : list Z) | APos (n : Z) | AFalse.
Definition ch_ans (c : Z) : ians := if (c =? C_EOF)%Z then AEof else AChar c.
Definition byte_ans (b : Z) : ians := if (b <? 0)%Z then AEof else AByte b.
Definition in_step (p : port) (o : iop) : res (port * ians) :=
  match o with
  | ReadChar => do x <- getc p; Ok (fst x, ch_ans (snd x))
  | PeekChar => do x <- peekc p; Ok (fst x, ch_ans (snd x))
  | ReadByte => do x <- getb p; Ok (fst x, byte_ans (snd x))
  | PeekByte => do x <- peekb p; Ok (fst x, byte_ans (snd x))
  | ReadLine => do x <- readline p; Ok (fst x, match snd x with None => AEof | Some l => ABytes l end)
  | ReadString n => do x <- readstring_loop n p []; Ok (fst x, match snd x with None => AEof | Some l => AChars l end)
  | ReadUvector n =>
    do x <- getz p n;
    Ok (fst (fst x), if (snd x =? C_EOF)%Z then AEof else ABytes (firstn (Z.to_nat (snd x)) (snd (fst x))))
  | PortTell => Ok (p, APos (tell p))
  | PortSeek off w => let x := seek p off w in Ok (fst x, match snd x with Some n => APos n | None => AFalse end)
  end.
(** a session: the outcomes, up to the first one that is not Ok *)
Fixpoint in_run (p : port) (ops : list iop) : list (res ians) :=
  match ops with
  | [] => []
  | o :: ops' =>
    match in_step p o with
    | Ok x => Ok (snd x) :: in_run (fst x) ops'
    | Err => [Err] | Panic => [Panic] | UB => [UB]
    end
  end.
