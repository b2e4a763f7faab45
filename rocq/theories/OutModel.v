(** Output ports: src/portapi.c on buffered files and on dynamic strings.

    The file behind a port is a byte list with the offset of the descriptor; write(2) takes
    at least one of the bytes offered, how many is chosen by [o_oracle] (write errors are
    left out).  Locking, virtual ports, port links and write errors are not modelled. *)
From Coq Require Import ZArith List Bool.
From Verif Require Import Outcome Utf8Model StringModel PortModel.
Import ListNotations.
Local Open Scope nat_scope.

(** write(2) at an offset: overwrite, extend, fill a hole with zeros *)
Definition overlay (f : list Z) (off : nat) (d : list Z) : list Z :=
  match d with
  | [] => f
  | _ => firstn off (f ++ repeat 0%Z (off - length f)) ++ d ++ skipn (off + length d) f
  end.

(** ** Buffered file ports, src/port.c *)
Record ofile := mkO {
  o_file : list Z; o_off : nat;      (** the file and the offset of the descriptor *)
  o_buf : list Z;                    (** between buf.buffer and buf.current *)
  o_size : nat; o_mode : bmode; o_flushed : bool; o_closed : bool; o_col : Z;
  o_oracle : nat -> nat; o_tick : nat }.
Definition set_o (p : ofile) (f : list Z) (off : nat) (buf : list Z) (tick : nat) : ofile :=
  mkO f off buf (o_size p) (o_mode p) (o_flushed p) (o_closed p) (o_col p) (o_oracle p) tick.
Definition set_obuf (p : ofile) (buf : list Z) : ofile := set_o p (o_file p) (o_off p) buf (o_tick p).
Definition set_mode (p : ofile) (m : bmode) : ofile :=
  mkO (o_file p) (o_off p) (o_buf p) (o_size p) m (o_flushed p) (o_closed p) (o_col p) (o_oracle p) (o_tick p).
Definition set_flushed (p : ofile) (b : bool) : ofile :=
  mkO (o_file p) (o_off p) (o_buf p) (o_size p) (o_mode p) b (o_closed p) (o_col p) (o_oracle p) (o_tick p).
Definition set_closed (p : ofile) : ofile :=
  mkO (o_file p) (o_off p) (o_buf p) (o_size p) (o_mode p) (o_flushed p) true (o_col p) (o_oracle p) (o_tick p).
Definition set_col (p : ofile) (c : Z) : ofile :=
  mkO (o_file p) (o_off p) (o_buf p) (o_size p) (o_mode p) (o_flushed p) (o_closed p) c (o_oracle p) (o_tick p).
(** port.c:1056-1115 Scm_MakeBufferedPortFull, 1575-1615 *)
Definition open_out (f : list Z) (size : nat) (m : bmode) (oracle : nat -> nat) : ofile :=
  mkO f 0 [] size m false false 0 oracle 0.

(** write(fd, datptr, cnt) *)
Definition sys_write (p : ofile) (data : list Z) : ofile * nat :=
  let r := Nat.min (Nat.max 1 (o_oracle p (o_tick p))) (length data) in
  (set_o p (overlay (o_file p) (o_off p) (firstn r data)) (o_off p + r) (o_buf p) (S (o_tick p)), r).
(** port.c:1495-1525 file_flusher; the loop is cut after [fuel] rounds (UB) *)
Fixpoint flusher_loop (fuel : nat) (p : ofile) (nwrote cnt : nat) (forcep : bool) : res (ofile * nat) :=
  match fuel with
  | O => UB
  | S f =>
    if (negb forcep && (nwrote =? 0)) || (forcep && (nwrote <? cnt)) then
      let x := sys_write p (skipn nwrote (o_buf p)) in
      flusher_loop f (fst x) (nwrote + snd x) cnt forcep
    else Ok (p, nwrote)
  end.
(** port.c:1131-1156 bufport_flush; the buffer of [cursiz] bytes is shifted by what was written *)
Definition bufport_flush (p : ofile) (cnt : Z) (forcep : bool) : res ofile :=
  let cursiz := length (o_buf p) in
  if cursiz =? 0 then Ok p
  else
    let cnt := if (cnt <=? 0)%Z then cursiz else Z.to_nat cnt in
    do x <- flusher_loop (S (S cnt)) p 0 cnt forcep;
    if snd x <? cursiz then Ok (set_obuf (fst x) (skipn (snd x) (o_buf (fst x))))
    else Ok (set_obuf (fst x) []).
(** storing into the buffer array *)
Definition buf_put (p : ofile) (d : list Z) : res ofile :=
  if length (o_buf p) + length d <=? o_size p then Ok (set_obuf p (o_buf p ++ d)) else UB.
(** port.c:1160-1176 bufport_write; cut after [fuel] rounds (UB) *)
Fixpoint bufport_write (fuel : nat) (p : ofile) (src : list Z) : res ofile :=
  match fuel with
  | O => UB
  | S f =>
    let room := o_size p - length (o_buf p) in
    if length src <=? room then buf_put p src
    else
      do p1 <- buf_put p (firstn room src);
      do p2 <- bufport_flush p1 0 false;
      bufport_write f p2 (skipn room src)
  end.

(** *** portapi.c *)
(** portapi.c:110-122 length_count: [fuel] bounds the loop, which advances by one or more *)
Fixpoint length_count (fuel : nat) (s : list Z) : Z :=
  match fuel, s with
  | S f, b :: _ =>
    let i := nfollows b in
    if (i <? 0)%Z then 0 else (1 + length_count f (skipn (Z.to_nat i + 1) s))%Z
  | _, _ => 0%Z
  end.
(** portapi.c:124-131 column_count: from the end backwards to a newline; [post] is what has
    been passed.  -1 if there is none. *)
Fixpoint column_loop (rev_s : list Z) (post : list Z) : Z :=
  match rev_s with
  | [] => (-1)%Z
  | b :: r => if (b =? 10)%Z then length_count (length post) post else column_loop r (b :: post)
  end.
Definition column_count (s : list Z) : Z := column_loop (rev s) [].
(** CLOSE_CHECK, portapi.c:79-87 *)
Definition check_open {A} (p : ofile) (k : res A) : res A := if o_closed p then Err else k.
(** portapi.c:138-183 Scm_Putb on a file port *)
Definition putb (p0 : ofile) (b : Z) : res ofile :=
  check_open p0
  (let p := set_flushed p0 false in
   do p1 <- (if o_size p <=? length (o_buf p) then bufport_flush p (Z.of_nat (length (o_buf p))) false else Ok p);
   assert (length (o_buf p1) <? o_size p1)
   (do p2 <- buf_put p1 [b];
    do p3 <- (match o_mode p2 with BNone => bufport_flush p2 1 false | _ => Ok p2 end);
    Ok (if (b =? 10)%Z then set_col p3 0 else p3))).
(** portapi.c:186-239 Scm_Putc on a file port *)
Definition putc_port (p0 : ofile) (c : Z) : res ofile :=
  check_open p0
  (let p := set_flushed p0 false in
   let nb := Z.to_nat (nbytes c) in
   do p1 <- (if o_size p <? length (o_buf p) + nb then bufport_flush p (Z.of_nat (length (o_buf p))) false else Ok p);
   assert (length (o_buf p1) + nb <=? o_size p1)
   (do p2 <- buf_put p1 (char_put c);
    do p3 <- (match o_mode p2 with
              | BLine => if (c =? 10)%Z then bufport_flush p2 (Z.of_nat nb) false else Ok p2
              | BNone => bufport_flush p2 (Z.of_nat nb) false
              | BFull => Ok p2
              end);
    Ok (set_col p3 (if (c =? 10)%Z then 0 else o_col p3 + 1)%Z))).
(** portapi.c:258-269, 316-327: after a block has been stored.  The scan from the end of the
    buffer finds a newline iff there is one; the count passed is negative (all). *)
Definition after_block (p : ofile) : res ofile :=
  match o_mode p with
  | BLine => if existsb (Z.eqb 10) (o_buf p) then bufport_flush p (-1) false else Ok p
  | BNone => bufport_flush p 0 true
  | BFull => Ok p
  end.
(** portapi.c:242-297 Scm_Puts of a string with the bytes [s] and [len] characters *)
Definition puts (p0 : ofile) (s : list Z) (len : nat) : res ofile :=
  check_open p0
  (do p1 <- bufport_write (length s + 2) (set_flushed p0 false) s;
   do p2 <- after_block p1;
   let col := column_count s in
   Ok (set_col p2 (if (col <? 0)%Z then o_col p2 + Z.of_nat len else col)%Z)).
(** portapi.c:300-355 Scm_Putz *)
Definition putz (p0 : ofile) (s : list Z) : res ofile :=
  check_open p0
  (do p1 <- bufport_write (length s + 2) (set_flushed p0 false) s;
   do p2 <- after_block p1;
   let col := column_count s in
   Ok (set_col p2 (if (col <? 0)%Z then o_col p2 + length_count (length s) s else col)%Z)).
(** portapi.c:358-392 Scm_Flush *)
Definition flush_port (p : ofile) : res ofile :=
  if o_flushed p then Ok p
  else check_open p (do p1 <- bufport_flush p 0 true; Ok (set_flushed p1 true)).
(** port.c:215-247 port_cleanup (no error has occurred, not the finalizer) *)
Definition close_port (p : ofile) : res ofile :=
  if o_closed p then Ok p else do p1 <- bufport_flush p 0 true; Ok (set_closed p1).
(** portapi.c:1115-1200 Scm_GetPortPosition *)
Definition otell (p : ofile) : res Z := check_open p (Ok (Z.of_nat (o_off p) + Z.of_nat (length (o_buf p)))%Z).
(** portapi.c:1210-1262 set_port_position; lseek fails for negative targets *)
Definition oset_position (p : ofile) (off : Z) (w : whence) : res (ofile * option Z) :=
  do p1 <- bufport_flush p 0 true;
  let t := match w with SeekSet => off | SeekCur => (Z.of_nat (o_off p1) + off)%Z | SeekEnd => (Z.of_nat (length (o_file p1)) + off)%Z end in
  if (t <? 0)%Z then Ok (p1, None)
  else Ok (set_o p1 (o_file p1) (Z.to_nat t) (o_buf p1) (o_tick p1), Some t).
(** portapi.c:1327-1340 Scm_PortSeek *)
Definition oseek (p : ofile) (off : Z) (w : whence) : res (ofile * option Z) :=
  check_open p
  (match w with
   | SeekCur => if (off =? 0)%Z then do n <- otell p; Ok (p, Some n) else oset_position p off w
   | _ => oset_position p off w
   end).

(** Scheme procedures: write-byte, write-char, display of a string, write-uvector, flush,
    close-output-port, port-tell, port-seek, (setter port-buffering), port-column,
    fresh-line (libio.scm:831-838) *)
Inductive oop := WriteByte (b : Z) | WriteChar (c : Z) | WriteString (cs : list Z) | WriteBytes (bs : list Z) | Flush | Close
               | OTell | OSeek (off : Z) (w : whence) | SetMode (m : bmode) | Column | FreshLine.
Inductive oans := OUnit | OPos (n : Z) | OFalse | OTrue.
Definition bytes_of (cs : list Z) : list Z := concat (map char_put cs).
Definition out_step (p : ofile) (o : oop) : res (ofile * oans) :=
  match o with
  | WriteByte b => do p1 <- putb p b; Ok (p1, OUnit)
  | WriteChar c => do p1 <- putc_port p c; Ok (p1, OUnit)
  | WriteString cs => do p1 <- puts p (bytes_of cs) (length cs); Ok (p1, OUnit)
  | WriteBytes bs => do p1 <- putz p bs; Ok (p1, OUnit)
  | Flush => do p1 <- flush_port p; Ok (p1, OUnit)
  | Close => do p1 <- close_port p; Ok (p1, OUnit)
  | OTell => do n <- otell p; Ok (p, OPos n)
  | OSeek off w => do x <- oseek p off w; Ok (fst x, match snd x with Some n => OPos n | None => OFalse end)
  | SetMode m => Ok (set_mode p m, OUnit)
  | Column => Ok (p, OPos (o_col p))
  | FreshLine => if (o_col p =? 0)%Z then Ok (p, OFalse) else do p1 <- putc_port p 10; Ok (p1, OTrue)
  end.
(** a session: the outcomes, each with the contents of the file as others see it *)
Fixpoint out_run (p : ofile) (ops : list oop) : list (res (oans * list Z)) :=
  match ops with
  | [] => []
  | o :: ops' =>
    match out_step p o with
    | Ok x => Ok (snd x, o_file (fst x)) :: out_run (fst x) ops'
    | Err => [Err] | Panic => [Panic] | UB => [UB]
    end
  end.

(** ** Dynamic strings, src/string.c:1975-2215 and src/gauche/string.h:372-431.

    A chunk is its data up to the highest byte stored, its capacity and its [bytes] field;
    the chain is kept in order and the current pointer is in its last chunk, or in the
    initial chunk if the chain is empty. *)
Definition INIT_CHUNK : nat := 32.
Definition MAX_CHUNK : nat := 8180.
Record chunk := mkC { c_bytes : nat; c_data : list Z; c_cap : nat }.
Record dstr := mkD { d_init : chunk; d_chain : list chunk; d_cur : nat; d_end : nat; d_last : nat; d_len : Z }.
(** string.c:1993-2001 Scm_DStringInit *)
Definition dstr_init : dstr := mkD (mkC 0 [] INIT_CHUNK) [] 0 INIT_CHUNK INIT_CHUNK 0.
Definition set_bytes (n : nat) (c : chunk) : chunk := mkC n (c_data c) (c_cap c).
Fixpoint map_last {A} (f : A -> A) (l : list A) : list A :=
  match l with [] => [] | [x] => [f x] | x :: r => x :: map_last f r end.
(** "sets the byte count of the last chunk", string.c:2007-2013, 2028-2034 *)
Definition sync_bytes (d : dstr) : dstr :=
  match d_chain d with
  | [] => mkD (set_bytes (d_cur d) (d_init d)) [] (d_cur d) (d_end d) (d_last d) (d_len d)
  | ch => mkD (d_init d) (map_last (set_bytes (d_cur d)) ch) (d_cur d) (d_end d) (d_last d) (d_len d)
  end.
(** string.c:2003-2019 Scm_DStringSize *)
Definition dstr_size (d : dstr) : dstr * nat :=
  let d1 := sync_bytes d in (d1, c_bytes (d_init d1) + fold_right (fun c n => c_bytes c + n) 0 (d_chain d1)).
(** string.c:2028-2061 Scm__DStringRealloc *)
Definition dstr_realloc (d : dstr) (minincr : nat) : dstr :=
  let d1 := sync_bytes d in
  let newsize := Nat.max (Nat.min (d_last d1 * 3) MAX_CHUNK) minincr in
  mkD (d_init d1) (d_chain d1 ++ [mkC 0 [] newsize]) 0 newsize newsize (d_len d1).
(** memcpy(current, str, size); current += size.  Outside the chunk is UB. *)
Definition chunk_store (c : chunk) (cur : nat) (s : list Z) : chunk :=
  mkC (c_bytes c) (firstn cur (c_data c) ++ s ++ skipn (cur + length s) (c_data c)) (c_cap c).
Definition dstr_store (d : dstr) (s : list Z) : res dstr :=
  let cap := match rev (d_chain d) with [] => c_cap (d_init d) | c :: _ => c_cap c end in
  if d_cur d + length s <=? cap then
    Ok (match d_chain d with
        | [] => mkD (chunk_store (d_init d) (d_cur d) s) [] (d_cur d + length s) (d_end d) (d_last d) (d_len d)
        | ch => mkD (d_init d) (map_last (fun c => chunk_store c (d_cur d) s) ch) (d_cur d + length s) (d_end d) (d_last d) (d_len d)
        end)
  else UB.
Definition dstr_room (d : dstr) (n : nat) : dstr := if d_end d <? d_cur d + n then dstr_realloc d n else d.
Definition set_len (d : dstr) (l : Z) : dstr := mkD (d_init d) (d_chain d) (d_cur d) (d_end d) (d_last d) l.
(** string.h:414-419 SCM_DSTRING_PUTB *)
Definition dstr_putb (d : dstr) (b : Z) : res dstr :=
  do d1 <- dstr_store (dstr_room d 1) [b]; Ok (set_len d1 (-1)).
(** string.h:421-431 SCM_DSTRING_PUTC *)
Definition dstr_putc (d : dstr) (c : Z) : res dstr :=
  do d1 <- dstr_store (dstr_room d (Z.to_nat (nbytes c))) (char_put c);
  Ok (if (0 <=? d_len d1)%Z then set_len d1 (d_len d1 + 1) else d1).
(** string.c:2167-2180 Scm_DStringPutz *)
Definition dstr_putz (d : dstr) (s : list Z) : res dstr :=
  do d1 <- dstr_store (dstr_room d (length s)) s;
  if (0 <=? d_len d1)%Z then
    do n <- count_length s (length s);
    Ok (set_len d1 (match n with Some n => d_len d1 + Z.of_nat n | None => -1 end)%Z)
  else Ok d1.
(** string.c:2182-2197 Scm_DStringAdd of a complete string *)
Definition dstr_add (d : dstr) (s : list Z) (len : nat) : res dstr :=
  if length s =? 0 then Ok d
  else do d1 <- dstr_store (dstr_room d (length s)) s;
       Ok (set_len d1 (if (0 <=? d_len d1)%Z then d_len d1 + Z.of_nat len else -1)%Z).
(** memcpy(bptr, chunk->data, chunk->bytes); bytes never stored are UB *)
Definition chunk_get (c : chunk) : res (list Z) :=
  if c_bytes c <=? length (c_data c) then Ok (firstn (c_bytes c) (c_data c)) else UB.
Fixpoint chunks_get (l : list chunk) : res (list Z) :=
  match l with [] => Ok [] | c :: r => do a <- chunk_get c; do b <- chunks_get r; Ok (a ++ b) end.
(** string.c:2064-2110 dstring_getz and Scm_DStringGet: the bytes and the length of the
    resulting string; None = incomplete *)
Definition dstr_get (d : dstr) : res (dstr * list Z * option nat) :=
  do x <- (match d_chain d with
           | [] => if d_cur d <=? length (c_data (d_init d)) then Ok (d, firstn (d_cur d) (c_data (d_init d))) else UB
           | _ => let d1 := fst (dstr_size d) in
                  do a <- chunk_get (d_init d1); do b <- chunks_get (d_chain d1); Ok (d1, a ++ b)
           end);
  let buf := snd x in
  do len <- (if (d_len (fst x) <? 0)%Z then count_length buf (length buf) else Ok (Some (Z.to_nat (d_len (fst x)))));
  Ok (fst x, buf, len).
(** write-byte, write-char, display, write-uvector, port-tell, get-output-string on a string port *)
Inductive sop := SByte (b : Z) | SChar (c : Z) | SString (cs : list Z) | SBytes (bs : list Z) | STell | SGet.
Inductive sans := SUnit | SPos (n : nat) | SStr (bs : list Z) (len : option nat).
Definition str_step (d : dstr) (o : sop) : res (dstr * sans) :=
  match o with
  | SByte b => do d1 <- dstr_putb d b; Ok (d1, SUnit)
  | SChar c => do d1 <- dstr_putc d c; Ok (d1, SUnit)
  | SString cs => do d1 <- dstr_add d (bytes_of cs) (length cs); Ok (d1, SUnit)
  | SBytes bs => do d1 <- dstr_putz d bs; Ok (d1, SUnit)
  | STell => let x := dstr_size d in Ok (fst x, SPos (snd x))
  | SGet => do x <- dstr_get d; Ok (fst (fst x), SStr (snd (fst x)) (snd x))
  end.
Fixpoint str_run (d : dstr) (ops : list sop) : list (res sans) :=
  match ops with
  | [] => []
  | o :: ops' =>
    match str_step d o with
    | Ok x => Ok (snd x) :: str_run (fst x) ops'
    | Err => [Err] | Panic => [Panic] | UB => [UB]
    end
  end.
