(** lib/rfc/uri.scm: uri-encode and uri-decode.  Bytes and characters are integers; the input port is
    the list of what is left to read, the output the returned list.  The input of the decoder is taken
    to be ASCII text, so that write-char emits one byte; conversion between character encodings
    (the :encoding option) is not modelled. *)
From Coq Require Import List Bool ZArith.
Import ListNotations.
Local Open Scope Z_scope.

(** (format #t "%~2,'0X" b), lib/rfc/uri.scm:360 *)
Definition hexdigit (d : Z) : Z := if d <? 10 then 48 + d else 55 + d.
(** (digit->integer c 16); only ASCII digits are considered *)
Definition digit16 (c : Z) : option Z :=
  if (48 <=? c) && (c <=? 57) then Some (c - 48)
  else if (65 <=? c) && (c <=? 70) then Some (c - 55)
  else if (97 <=? c) && (c <=? 102) then Some (c - 87) else None.
(** lib/rfc/uri.scm:347, 348  the unreserved character sets *)
Definition alnum (c : Z) : bool := (48 <=? c) && (c <=? 57) || (65 <=? c) && (c <=? 90) || (97 <=? c) && (c <=? 122).
Definition rfc3986_unreserved (c : Z) : bool := (c =? 45) || (c =? 95) || (c =? 46) || (c =? 126) || alnum c.
Definition rfc2396_unreserved (c : Z) : bool :=
  (c =? 45) || (c =? 95) || (c =? 46) || (c =? 33) || (c =? 126) || (c =? 42) || (c =? 39) || (c =? 40) || (c =? 41) || alnum c.
(** lib/rfc/uri.scm:354-361  uri-encode *)
Fixpoint uri_encode (noescape : Z -> bool) (bs : list Z) : list Z :=
  match bs with
  | [] => []
  | b :: r => (if (b <? 128) && noescape b then [b] else [37; hexdigit (b / 16); hexdigit (b mod 16)]) ++ uri_encode noescape r
  end.
(** lib/rfc/uri.scm:310-331  uri-decode *)
Fixpoint uri_decode (cgi : bool) (cs : list Z) : list Z :=
  match cs with
  | [] => []
  | c :: l1 =>
    if c =? 37 then
      match l1 with
      | [] => [c]
      | c1 :: l2 =>
        match digit16 c1 with
        | Some i1 =>
          match l2 with
          | [] => [c; c1]
          | c2 :: l3 =>
            match digit16 c2 with
            | Some i2 => i1 * 16 + i2 :: uri_decode cgi l3
            | None => c :: c1 :: uri_decode cgi l2
            end
          end
        | None => c :: uri_decode cgi l1
        end
      end
    else if c =? 43 then (if cgi then 32 else 43) :: uri_decode cgi l1
    else c :: uri_decode cgi l1
  end.
