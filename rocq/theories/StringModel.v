(** Strings: src/string.c.  A string body is a byte buffer with a size, a
    character count, flags and an optional index for constant-time access.

    Simplifications: sizes never reach SCM_STRING_MAX_SIZE (CHECK_SIZE); the
    flags other than SCM_STRING_INCOMPLETE are not represented; a C pointer into
    the body is its byte offset from the start of the body. *)
From Coq Require Import ZArith List Bool.
From Verif Require Import Outcome Utf8Model.
Import ListNotations.

(** src/gauche/string.h ScmStringBody.  [b_buf] is the memory from [start] to the
    end of the allocated block; it can be longer than [b_size], since substrings
    share their parent's buffer. *)
Record body := mkbody {
  b_len : nat;  b_size : nat;  b_buf : list Z;
  b_incomplete : bool;  b_index : option (list Z) }.

(** src/string.c:61-83  make_str (len >= 0 here; the too-long case is an error) *)
Definition make_str (len siz : nat) (buf : list Z) (inc : bool) (index : option (list Z)) : res body :=
  let len := if inc then siz else len in
  if Nat.ltb siz len then Err
  else Ok (mkbody len siz buf inc index).

(** src/gauche/string.h:141  SCM_STRING_BODY_SINGLE_BYTE_P: size == length *)
Definition single_byte (b : body) : bool := Nat.eqb (b_size b) (b_len b).

(** src/string.c:584-588, the loop of forward_pos; None = read out of buffer *)
Fixpoint fwd (buf : list Z) (cur nchars : nat) : option nat :=
  match nchars with
  | O => Some cur
  | S n =>
    match nth_error buf cur with
    | None => None
    | Some b => fwd buf (cur + Z.to_nat (nfollows b) + 1) n
    end
  end.

(** src/string.c:576-590  forward_pos *)
Definition forward_pos (b : body) (cur nchars : nat) : res nat :=
  if single_byte b || b_incomplete b then Ok (cur + nchars)
  else of_opt (fwd (b_buf b) cur nchars).

(** src/gauche/priv/stringP.h:110-117: fields of the signature byte *)
Definition index_shift (sig : Z) : Z := Z.land (Z.shiftr sig 3) 7 + 1.
Definition index_type (sig : Z) : Z := Z.land sig 7.
Definition index_signature (s t : Z) : Z :=
  Z.lor (Z.shiftl (Z.land (s - 1) 7) 3) (Z.land t 7).

(** src/string.c:593-631  index2ptr.  The index vector's element 0 is the
    signature (repeated to fill the element; we keep the byte), element 1 the
    length of the vector, the rest byte offsets. *)
Definition index2ptr (b : body) (nchars : nat) : res nat :=
  match b_index b with
  | None => forward_pos b 0 nchars
  | Some vec =>
    let sig := nth 0 vec 0%Z in
    let shift := index_shift sig in
    let array_off := (Z.shiftr (Z.of_nat nchars) shift + 1)%Z in
    do off <- (if (1 <? array_off)%Z
               then if (index_type sig =? 0)%Z || (index_type sig =? 1)%Z
                       || (index_type sig =? 3)%Z || (index_type sig =? 5)%Z
                    then assert (array_off <? nth 1 vec 0%Z)%Z
                                (of_opt (nth_error vec (Z.to_nat array_off)))
                    else Panic
               else Ok 0%Z);
    forward_pos b (Z.to_nat off)
      (Z.to_nat (Z.land (Z.of_nat nchars) (Z.shiftl 1 shift - 1)))
  end.

(** src/string.c:1594-1602  compute_index_size *)
Definition compute_index_size (b : body) (interval : nat) : nat :=
  (b_len b + interval - 1) / interval + 1.

(** src/string.c:1618-1622  the loop of BUILD_ARRAY filling vec[2..]; entries are
    cast to an unsigned type of [w] bits *)
Fixpoint build_entries (b : body) (p interval : nat) (w : Z) (k : nat) : res (list Z) :=
  match k with
  | O => Ok []
  | S k' =>
    do q <- forward_pos b p interval;
    do rest <- build_entries b q interval w k';
    Ok ((Z.of_nat q mod 2 ^ w)%Z :: rest)
  end.

(** src/string.c:1611-1624  BUILD_ARRAY(type_, typeenum_, shift_, sigrep_) *)
Definition build_array (b : body) (w typeenum : Z) (shift : nat) : res (list Z) :=
  let interval := Nat.pow 2 shift in
  let index_size := compute_index_size b interval in
  do rest <- build_entries b 0 interval w (index_size - 2);
  Ok (index_signature (Z.of_nat shift) typeenum
      :: (Z.of_nat index_size mod 2 ^ w)%Z :: rest).

(** src/string.c:1604-1654  build_index_array (64-bit long) *)
Definition build_index_array (b : body) : res (list Z) :=
  let size := Z.of_nat (b_size b) in
  (if size <? 256 then build_array b 8 0 4
   else if size <? 8192 then build_array b 16 1 5
   else if size <? 65536 then build_array b 16 1 6
   else if size <? 2 ^ 32 then build_array b 32 3 7
   else build_array b 64 5 8)%Z.

(** src/string.c:1580-1585 string_body_index_needed *)
Definition index_needed (b : body) : bool :=
  negb (single_byte b) && negb (b_incomplete b) && Nat.leb 64 (b_size b).

(** src/string.c:1657-1662  Scm_StringBodyBuildIndex (string-build-index!) *)
Definition string_build_index (b : body) : res body :=
  if negb (index_needed b) || (match b_index b with Some _ => true | None => false end)
  then Ok b
  else do v <- build_index_array b;
       Ok (mkbody (b_len b) (b_size b) (b_buf b) (b_incomplete b) (Some v)).

(** SCM_CHAR_GET at a byte offset of the buffer *)
Definition get_at (b : body) (p : nat) : res Z :=
  match char_get (skipn p (b_buf b)) with
  | Ch c => Ok c | Invalid => Ok (-1)%Z | Oob => UB
  end.

(** src/string.c:642-676  Scm_StringRef with range_error = TRUE *)
Definition string_ref (b : body) (pos : Z) : res Z :=
  if b_incomplete b then Err
  else if (pos <? 0)%Z || (Z.of_nat (b_len b) <=? pos)%Z then Err
  else if single_byte b then of_opt (nth_error (b_buf b) (Z.to_nat pos))
  else do p <- index2ptr b (Z.to_nat pos); get_at b p.

(** src/string.c:162-178  count_length(str, size); [fuel] bounds the loop, each
    iteration of which consumes at least one byte.  [None] is the result -1. *)
Fixpoint count_length_loop (fuel : nat) (str : list Z) (size : nat) : res (option nat) :=
  match fuel with
  | O => UB
  | S fuel' =>
    match size with
    | O => Ok (Some O)
    | S size1 =>
      match str with
      | [] => UB
      | c :: _ =>
        let i := Z.to_nat (nfollows c) in
        if Nat.ltb size1 i then Ok None
        else match char_get str with
             | Oob => UB
             | Invalid => Ok None
             | Ch _ =>
               do r <- count_length_loop fuel' (skipn (i + 1) str) (size1 - i);
               Ok (match r with None => None | Some n => Some (S n) end)
             end
      end
    end
  end.
Definition count_length (str : list Z) (size : nat) : res (option nat) :=
  count_length_loop (S size) str size.

(** src/string.c:1819-1838  Scm_StringCursorPointer for an integer argument *)
Definition cursor_pointer_int (b : body) (to_end : bool) (i : Z) : res nat :=
  if to_end && (i =? -1)%Z then Ok (b_size b)
  else if (i <? 0)%Z || (Z.of_nat (b_len b) <? i)%Z then Err
  else index2ptr b (Z.to_nat i).

(** src/string.c:965-999  substring_cursor, on byte offsets *)
Definition substring_cursor (b : body) (start fin : nat) : res body :=
  if Nat.ltb (b_size b) start then Err
  else if Nat.ltb (b_size b) fin then Err
  else if Nat.ltb fin start then Err
  else
    let buf := skipn start (b_buf b) in
    do len <- (if single_byte b then Ok (Some (fin - start))
               else count_length buf (fin - start));
    match len with
    | Some n => make_str n (fin - start) buf (b_incomplete b) None
    | None => make_str 0 (fin - start) buf true None
    end.

(** src/string.c:1939-1948  Scm_SubstringCursor with integer arguments; this is
    the Scheme procedure [substring] (src/libstr.scm:126-127) *)
Definition scm_substring (b : body) (start fin : Z) : res body :=
  do s <- cursor_pointer_int b false start;
  do e <- cursor_pointer_int b true fin;
  substring_cursor b s e.

(** src/string.c:714-736  Scm_StringAppend2 *)
Definition string_append2 (x y : body) : res body :=
  make_str (b_len x + b_len y) (b_size x + b_size y)
    (firstn (b_size x) (b_buf x) ++ firstn (b_size y) (b_buf y) ++ [0%Z])
    (b_incomplete x || b_incomplete y) None.

(** src/list.c Scm_ListTail with a fallback: None if the list is too short *)
Definition list_tail {A} (l : list A) (n : nat) : option (list A) :=
  if Nat.ltb (length l) n then None else Some (skipn n l).

(** src/string.c:319-330, 334-342: both loops of Scm_ListToStringFull visit the
    same prefix of the list, deciding *after* handling an element whether to
    stop ([maxlen >= 0 && len >= maxlen]). *)
Fixpoint chars_upto (cs : list Z) (len maxlen : Z) : list Z :=
  match cs with
  | [] => []
  | c :: r =>
    let len := (len + 1)%Z in
    if (0 <=? maxlen)%Z && (maxlen <=? len)%Z then [c] else c :: chars_upto r len maxlen
  end.

(** src/string.c:303-350  Scm_ListToStringFull (every element is a character);
    [list->string] with optional start/end defaulting to 0 and -1
    (src/libstr.scm:110-113) *)
Definition list_to_string (cs : list Z) (start fin : Z) : res body :=
  if ((start <? 0) || ((0 <=? fin) && (fin <? start)))%Z then Err
  else
    do cm <- (if (start =? 0)%Z then Ok (cs, (-1)%Z)
              else match list_tail cs (Z.to_nat start) with
                   | None => Err
                   | Some t => Ok (t, (fin - start)%Z)
                   end);
    let used := chars_upto (fst cm) 0 (snd cm) in
    let bytes := concat (map char_put used) in
    make_str (length used) (length bytes) (bytes ++ [0%Z]) false None.

(** src/string.c:1778-1812  Scm_StringCursorIndex on a byte offset: the walk *)
Fixpoint cursor_index_loop (buf : list Z) (cur ptr index len : nat) : res (nat * nat) :=
  match len with
  | O => Ok (cur, index)
  | S len' =>
    if Nat.ltb cur ptr then
      match nth_error buf cur with
      | None => UB
      | Some c => cursor_index_loop buf (cur + Z.to_nat (nfollows c) + 1) ptr (index + 1) len'
      end
    else Ok (cur, index)
  end.
Definition cursor_index (b : body) (ptr : nat) : res nat :=
  if Nat.ltb (b_size b) ptr then Err
  else if single_byte b || b_incomplete b then Ok ptr
  else do r <- cursor_index_loop (b_buf b) 0 ptr 0 (b_len b);
       if Nat.eqb (fst r) ptr then Ok (snd r) else Err.
