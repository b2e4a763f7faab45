(** lib/rfc/quoted-printable.scm.  Bytes and characters are integers; the input port is the list of
    what is left to read, the output the returned list.  The decoder's input is taken to be ASCII
    text, so that write-char emits one byte.  Output written before an error is not recorded. *)
From Coq Require Import List Bool ZArith.
From Verif Require Import Outcome.
Import ListNotations.
Local Open Scope Z_scope.

(** one digit of ~X *)
Definition hexdigit (d : Z) : Z := if d <? 10 then 48 + d else 55 + d.
(** (format #t "=~2,'0X" c), lib/rfc/quoted-printable.scm:74 *)
Definition hex2 (c : Z) : list Z := [61; hexdigit (c / 16); hexdigit (c mod 16)].
(** (digit->integer c 16); only ASCII digits are considered *)
Definition digit16 (c : Z) : option Z :=
  if (48 <=? c) && (c <=? 57) then Some (c - 48)
  else if (65 <=? c) && (c <=? 70) then Some (c - 55)
  else if (97 <=? c) && (c <=? 102) then Some (c - 87) else None.

(** the test of lib/rfc/quoted-printable.scm:71 *)
Definition literal (c : Z) : bool := (32 <? c) && (c <? 61) || (c =? 62) || (63 <? c) && (c <? 127).
(** lib/rfc/quoted-printable.scm:53 *)
Definition limit_of (line_width : option Z) : option Z :=
  match line_width with Some w => if 4 <=? w then Some (w - 3) else None | None => None end.
Section Encode.
Context (limit : option Z) (binary : bool).
(** lib/rfc/quoted-printable.scm:57  the soft line break; it reads nothing, and as limit >= 1 the
    next iteration continues with one of the other clauses.  The clause at line 58 is never reached. *)
Definition soft_break (lcnt : Z) : list Z * Z :=
  match limit with
  | Some l => if l <=? lcnt then ([61; 13; 10], 0) else ([], lcnt)
  | None => ([], lcnt)
  end.
(** lib/rfc/quoted-printable.scm:54-74  the loop of quoted-printable-encode *)
Fixpoint encode_loop (bs : list Z) (lcnt : Z) : res (list Z) :=
  match bs with
  | [] => Ok []
  | c :: r =>
    let '(pre, lcnt) := soft_break lcnt in
    do s <-
      (if binary && ((c =? 10) || (c =? 13)) then do s <- encode_loop r (lcnt + 1); Ok ([61; 48; hexdigit c] ++ s)
       else if c =? 13 then
         match r with
         | [] => Err                                   (* (= eof #x0a) *)
         | c1 :: r1 => if c1 =? 10 then do s <- encode_loop r1 0; Ok ([13; 10] ++ s)
                       else do s <- encode_loop r 0; Ok ([13; 10] ++ s)
         end
       else if c =? 10 then do s <- encode_loop r 0; Ok ([13; 10] ++ s)
       else if literal c then do s <- encode_loop r (lcnt + 1); Ok (c :: s)
       else do s <- encode_loop r (lcnt + 3); Ok (hex2 c ++ s));
    Ok (pre ++ s)
  end.
End Encode.
(** lib/rfc/quoted-printable.scm:52-75  quoted-printable-encode *)
Definition qp_encode (line_width : option Z) (binary : bool) (bs : list Z) : res (list Z) :=
  encode_loop (limit_of line_width) binary bs 0.

(** lib/rfc/quoted-printable.scm:88-127  quoted-printable-decode.  [loop2 r cs] is the inner loop at
    100, [r] the blanks read so far (newest first, above "="). *)
Fixpoint qp_decode (cs : list Z) : res (list Z) :=
  match cs with
  | [] => Ok []
  | c :: l1 =>
    if c =? 61 then
      match l1 with
      | [] => Ok []
      | c1 :: l2 =>
        if c1 =? 10 then qp_decode l2
        else if c1 =? 13 then
          match l2 with
          | [] => Err                                  (* (char=? eof #\newline) *)
          | c2 :: l3 => if c2 =? 10 then qp_decode l3 else qp_decode l2
          end
        else if (c1 =? 9) || (c1 =? 32) then
          (fix loop2 (r cs : list Z) : res (list Z) :=
             match cs with
             | [] => Ok []
             | c2 :: l3 =>
               if c2 =? 10 then qp_decode l3
               else if c2 =? 13 then
                 match l3 with
                 | [] => Err
                 | c3 :: l4 => if c3 =? 10 then qp_decode l4 else qp_decode l3
                 end
               else if (c2 =? 9) || (c2 =? 32) then loop2 (c2 :: r) l3
               else do s <- qp_decode cs; Ok (rev r ++ s)
             end) [c1; c] l2
        else
          match digit16 c1 with
          | Some n1 =>
            match l2 with
            | [] => Ok [c; c1]
            | c2 :: l3 =>
              match digit16 c2 with
              | Some n2 => do s <- qp_decode l3; Ok (n1 * 16 + n2 :: s)
              | None => do s <- qp_decode l2; Ok (c :: c1 :: s)
              end
            end
          | None => do s <- qp_decode l1; Ok (c :: s)
          end
      end
    else do s <- qp_decode l1; Ok (c :: s)
  end.
