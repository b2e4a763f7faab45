(** UTF-8 character codec of Gauche's internal string representation.

    Characters ([ScmChar]) are modelled as [Z]; bytes as [Z] in 0..255; a
    [const char*] into a buffer is the list of bytes from that position to the
    end of the allocated buffer.  Reading past the end of the allocated buffer
    is undefined behaviour in C and is the distinct outcome [Oob]. *)
From Coq Require Import ZArith List Bool.
Import ListNotations.
Local Open Scope Z_scope.

(** Outcome of a C-level decode: a character, SCM_CHAR_INVALID, or a read
    outside the buffer (undefined behaviour). *)
Inductive getres := Ch (c : Z) | Invalid | Oob.

(** (u_char) cast *)
Definition u8 (x : Z) : Z := x mod 256.

(** src/char.c:93-110  Scm_CharSizeTable.  The 256-entry table is written as
    the run-length equivalent of the literal rows: rows 0x-bx are 0, cx-dx are
    1, ex is 2, and row fx is 3 x8, 4 x4, 5 x2, 0 x2. *)
Definition char_size_table : list Z :=
  repeat 0 192 ++ repeat 1 32 ++ repeat 2 16
  ++ repeat 3 8 ++ repeat 4 4 ++ repeat 5 2 ++ repeat 0 2.

(** src/gauche/char_utf_8.h:52  SCM_CHAR_NFOLLOWS(ch): table lookup on the
    unsigned char value. *)
Definition nfollows (b : Z) : Z := nth (Z.to_nat (u8 b)) char_size_table 0.

(** src/gauche/char_utf_8.h:57-62  SCM_CHAR_NBYTES(ch) *)
Definition nbytes (c : Z) : Z :=
  if c <? 0x80 then 1 else
  if c <? 0x800 then 2 else
  if c <? 0x10000 then 3 else
  if c <? 0x200000 then 4 else
  if c <? 0x4000000 then 5 else 6.

(** src/char.c:122-123 (and every repetition below it):
    [if ( *ucp < 0x80 || *ucp >= 0xc0) return SCM_CHAR_INVALID;
     ch = (ch<<6) | ( *ucp++&0x3f);]
    iterated [n] times, followed by the minimum check
    [if (ch < lim) return SCM_CHAR_INVALID]. *)
Fixpoint getc_follow (n : nat) (ch lim : Z) (p : list Z) : getres :=
  match n with
  | O => if ch <? lim then Invalid else Ch ch
  | S n' =>
    match p with
    | [] => Oob
    | b :: p' =>
      if (b <? 0x80) || (0xc0 <=? b) then Invalid
      else getc_follow n' (Z.lor (Z.shiftl ch 6) (Z.land b 0x3f)) lim p'
    end
  end.

(** src/char.c:112-173  Scm_CharUtf8Getc *)
Definition utf8_getc (cp : list Z) : getres :=
  match cp with
  | [] => Oob
  | first :: ucp =>
    if first <? 0x80 then Ch first
    else if first <? 0xc0 then Invalid
    else if first <? 0xe0 then getc_follow 1 (Z.land first 0x1f) 0x80 ucp
    else if first <? 0xf0 then getc_follow 2 (Z.land first 0x0f) 0x800 ucp
    else if first <? 0xf8 then getc_follow 3 (Z.land first 0x07) 0x10000 ucp
    else if first <? 0xfc then getc_follow 4 (Z.land first 0x03) 0x200000 ucp
    else if first <? 0xfe then getc_follow 5 (Z.land first 0x01) 0x4000000 ucp
    else Invalid
  end.

(** src/gauche/char_utf_8.h:71-76  SCM_CHAR_GET *)
Definition char_get (cp : list Z) : getres :=
  match cp with
  | [] => Oob
  | b :: _ => if 0x80 <=? b then utf8_getc cp else Ch b
  end.

(** src/char.c:175-212  Scm_CharUtf8Putc: the bytes stored at cp *)
Definition utf8_putc (ch : Z) : list Z :=
  let c6 sh := Z.lor (u8 (Z.land (Z.shiftr ch sh) 0x3f)) 0x80 in
  if ch <? 0x80 then [u8 ch]
  else if ch <? 0x800 then
    [Z.lor (u8 (Z.land (Z.shiftr ch 6) 0x1f)) 0xc0; c6 0]
  else if ch <? 0x10000 then
    [Z.lor (u8 (Z.land (Z.shiftr ch 12) 0x0f)) 0xe0; c6 6; c6 0]
  else if ch <? 0x200000 then
    [Z.lor (u8 (Z.land (Z.shiftr ch 18) 0x07)) 0xf0; c6 12; c6 6; c6 0]
  else if ch <? 0x4000000 then
    [Z.lor (u8 (Z.land (Z.shiftr ch 24) 0x03)) 0xf8; c6 18; c6 12; c6 6; c6 0]
  else
    [Z.lor (u8 (Z.land (Z.shiftr ch 30) 0x01)) 0xfc; c6 24; c6 18; c6 12; c6 6; c6 0].

(** src/gauche/char_utf_8.h:82-89  SCM_CHAR_PUT *)
Definition char_put (ch : Z) : list Z :=
  if 0x80 <=? ch then utf8_putc ch else [u8 ch].

(** Result of SCM_CHAR_BACKWARD: a byte offset, NULL, or undefined behaviour
    (a read before the beginning of the buffer). *)
Inductive backres := Back (pos : nat) | BNull | BOob.

(** The byte at offset [i] of the buffer; [None] if outside it. *)
Definition byte_at (buf : list Z) (i : Z) : option Z :=
  if i <? 0 then None else nth_error buf (Z.to_nat i).

(** src/gauche/char_utf_8.h:97-127  SCM_CHAR_BACKWARD(cp, start, result): the
    case labels fall through from [k] down to 1; [result = cp-k] is accepted if
    its NFOLLOWS is k-1. *)
Fixpoint backward_from (buf : list Z) (cp : Z) (k : nat) : backres :=
  match k with
  | O => BNull
  | S k' =>
    match byte_at buf (cp - Z.of_nat k) with
    | None => BOob
    | Some b => if nfollows b =? Z.of_nat k' then Back (Z.to_nat (cp - Z.of_nat k))
                else backward_from buf cp k'
    end
  end.

(** The [switch ((cp)-(start))] dispatch of SCM_CHAR_BACKWARD: [default] covers
    both distances >= 6 and distance 0. *)
Definition char_backward (buf : list Z) (cp : nat) : backres :=
  backward_from buf (Z.of_nat cp)
    (match cp with
     | 1%nat => 1 | 2%nat => 2 | 3%nat => 3 | 4%nat => 4 | 5%nat => 5
     | _ => 6
     end)%nat.
