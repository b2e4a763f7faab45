(** lib/rfc/base64.scm: base64, base32 and base16.
    Bytes and characters are integers (Unicode code points); input ports are lists of remaining
    items; output is the returned list.  When an error is raised, output already written is not
    recorded. *)
From Coq Require Import List Bool ZArith.
From Verif Require Import Outcome.
Import ListNotations.
Local Open Scope Z_scope.

(** lib/rfc/base64.scm:86  *standard-decode-table* *)
Definition standard_decode : list (option Z) := [
  None; None; None; None; None; None; None; None; None; None; None; Some 62; None; None; None; Some 63;
  Some 52; Some 53; Some 54; Some 55; Some 56; Some 57; Some 58; Some 59; Some 60; Some 61; None; None; None; None; None; None;
  None; Some 0; Some 1; Some 2; Some 3; Some 4; Some 5; Some 6; Some 7; Some 8; Some 9; Some 10; Some 11; Some 12; Some 13; Some 14;
  Some 15; Some 16; Some 17; Some 18; Some 19; Some 20; Some 21; Some 22; Some 23; Some 24; Some 25; None; None; None; None; None;
  None; Some 26; Some 27; Some 28; Some 29; Some 30; Some 31; Some 32; Some 33; Some 34; Some 35; Some 36; Some 37; Some 38; Some 39; Some 40;
  Some 41; Some 42; Some 43; Some 44; Some 45; Some 46; Some 47; Some 48; Some 49; Some 50; Some 51; None; None; None; None; None].
(** lib/rfc/base64.scm:101  *standard-encode-table* *)
Definition standard_encode : list Z := [
  65; 66; 67; 68; 69; 70; 71; 72; 73; 74; 75; 76; 77; 78; 79; 80;
  81; 82; 83; 84; 85; 86; 87; 88; 89; 90; 97; 98; 99; 100; 101; 102;
  103; 104; 105; 106; 107; 108; 109; 110; 111; 112; 113; 114; 115; 116; 117; 118;
  119; 120; 121; 122; 48; 49; 50; 51; 52; 53; 54; 55; 56; 57; 43; 47;
  61].  (* ABCDEFGHIJKLMNOPQRSTUVWXYZabcdefghijklmnopqrstuvwxyz0123456789+/= *)
(** lib/rfc/base64.scm:114  *url-safe-decode-table* *)
Definition url_safe_decode : list (option Z) := [
  None; None; None; None; None; None; None; None; None; None; None; None; None; Some 62; None; None;
  Some 52; Some 53; Some 54; Some 55; Some 56; Some 57; Some 58; Some 59; Some 60; Some 61; None; None; None; None; None; None;
  None; Some 0; Some 1; Some 2; Some 3; Some 4; Some 5; Some 6; Some 7; Some 8; Some 9; Some 10; Some 11; Some 12; Some 13; Some 14;
  Some 15; Some 16; Some 17; Some 18; Some 19; Some 20; Some 21; Some 22; Some 23; Some 24; Some 25; None; None; None; None; Some 63;
  None; Some 26; Some 27; Some 28; Some 29; Some 30; Some 31; Some 32; Some 33; Some 34; Some 35; Some 36; Some 37; Some 38; Some 39; Some 40;
  Some 41; Some 42; Some 43; Some 44; Some 45; Some 46; Some 47; Some 48; Some 49; Some 50; Some 51; None; None; None; None; None].
(** lib/rfc/base64.scm:129  *url-safe-encode-table* *)
Definition url_safe_encode : list Z := [
  65; 66; 67; 68; 69; 70; 71; 72; 73; 74; 75; 76; 77; 78; 79; 80;
  81; 82; 83; 84; 85; 86; 87; 88; 89; 90; 97; 98; 99; 100; 101; 102;
  103; 104; 105; 106; 107; 108; 109; 110; 111; 112; 113; 114; 115; 116; 117; 118;
  119; 120; 121; 122; 48; 49; 50; 51; 52; 53; 54; 55; 56; 57; 45; 95;
  61].  (* ABCDEFGHIJKLMNOPQRSTUVWXYZabcdefghijklmnopqrstuvwxyz0123456789-_= *)
(** lib/rfc/base64.scm:305  *base32-decode-table* *)
Definition base32_decode_table : list (option Z) := [
  None; None; None; None; None; None; None; None; None; None; None; None; None; None; None; None;
  None; None; Some 26; Some 27; Some 28; Some 29; Some 30; Some 31; None; None; None; None; None; None; None; None;
  None; Some 0; Some 1; Some 2; Some 3; Some 4; Some 5; Some 6; Some 7; Some 8; Some 9; Some 10; Some 11; Some 12; Some 13; Some 14;
  Some 15; Some 16; Some 17; Some 18; Some 19; Some 20; Some 21; Some 22; Some 23; Some 24; Some 25; None; None; None; None; None;
  None; None; None; None; None; None; None; None; None; None; None; None; None; None; None; None;
  None; None; None; None; None; None; None; None; None; None; None; None; None; None; None; None].
(** lib/rfc/base64.scm:320  *base32-encode-table* *)
Definition base32_encode_table : list Z := [
  65; 66; 67; 68; 69; 70; 71; 72; 73; 74; 75; 76; 77; 78; 79; 80;
  81; 82; 83; 84; 85; 86; 87; 88; 89; 90; 50; 51; 52; 53; 54; 55;
  61].  (* ABCDEFGHIJKLMNOPQRSTUVWXYZ234567= *)
(** lib/rfc/base64.scm:329  *base32hex-decode-table* *)
Definition base32hex_decode_table : list (option Z) := [
  None; None; None; None; None; None; None; None; None; None; None; None; None; None; None; None;
  Some 0; Some 1; Some 2; Some 3; Some 4; Some 5; Some 6; Some 7; Some 8; Some 9; None; None; None; None; None; None;
  None; Some 10; Some 11; Some 12; Some 13; Some 14; Some 15; Some 16; Some 17; Some 18; Some 19; Some 20; Some 21; Some 22; Some 23; Some 24;
  Some 25; Some 26; Some 27; Some 28; Some 29; Some 30; Some 31; None; None; None; None; None; None; None; None; None;
  None; None; None; None; None; None; None; None; None; None; None; None; None; None; None; None;
  None; None; None; None; None; None; None; None; None; None; None; None; None; None; None; None].
(** lib/rfc/base64.scm:344  *base32hex-encode-table* *)
Definition base32hex_encode_table : list Z := [
  48; 49; 50; 51; 52; 53; 54; 55; 56; 57; 65; 66; 67; 68; 69; 70;
  71; 72; 73; 74; 75; 76; 77; 78; 79; 80; 81; 82; 83; 84; 85; 86;
  61].  (* 0123456789ABCDEFGHIJKLMNOPQRSTUV= *)
(** lib/rfc/base64.scm:510  *base16-decode-table* *)
Definition base16_decode_table : list (option Z) := [
  None; None; None; None; None; None; None; None; None; None; None; None; None; None; None; None;
  Some 0; Some 1; Some 2; Some 3; Some 4; Some 5; Some 6; Some 7; Some 8; Some 9; None; None; None; None; None; None;
  None; Some 10; Some 11; Some 12; Some 13; Some 14; Some 15; None; None; None; None; None; None; None; None; None;
  None; None; None; None; None; None; None; None; None; None; None; None; None; None; None; None;
  None; None; None; None; None; None; None; None; None; None; None; None; None; None; None; None;
  None; None; None; None; None; None; None; None; None; None; None; None; None; None; None; None].
(** lib/rfc/base64.scm:524  *base16lax-decode-table* *)
Definition base16lax_decode_table : list (option Z) := [
  None; None; None; None; None; None; None; None; None; None; None; None; None; None; None; None;
  Some 0; Some 1; Some 2; Some 3; Some 4; Some 5; Some 6; Some 7; Some 8; Some 9; None; None; None; None; None; None;
  None; Some 10; Some 11; Some 12; Some 13; Some 14; Some 15; None; None; None; None; None; None; None; None; None;
  None; None; None; None; None; None; None; None; None; None; None; None; None; None; None; None;
  None; Some 10; Some 11; Some 12; Some 13; Some 14; Some 15; None; None; None; None; None; None; None; None; None;
  None; None; None; None; None; None; None; None; None; None; None; None; None; None; None; None].
(** lib/rfc/base64.scm:539  *base16-encode-table* *)
Definition base16_encode_table : list Z := [
  48; 49; 50; 51; 52; 53; 54; 55; 56; 57; 65; 66; 67; 68; 69; 70].  (* 0123456789ABCDEF *)
(** lib/rfc/base64.scm:542  *base16lc-encode-table* *)
Definition base16lc_encode_table : list Z := [
  48; 49; 50; 51; 52; 53; 54; 55; 56; 57; 97; 98; 99; 100; 101; 102].  (* 0123456789abcdef *)

(** (vector-ref table i) of an encoding table; the index is always in range *)
Definition tget (t : list Z) (i : Z) : Z := nth (Z.to_nat i) t 0.
(** the lookup macro, lib/rfc/base64.scm:198-202, 355-359, 551-555 *)
Definition lookup (t : list (option Z)) (c : Z) : option Z :=
  if (32 <? c) && (c <? 128) then nth (Z.to_nat (c - 32)) t None else None.

(** lib/rfc/base64.scm:151-153  %valid-digit? *)
Definition valid_digit (c : Z) : bool :=
  (0 <=? c) && (c <? 128) &&
  negb ((65 <=? c) && (c <=? 90) || (97 <=? c) && (c <=? 122) || (48 <=? c) && (c <=? 57) || (c =? 61)).
(** vector-set!: an error if the index is out of range *)
Fixpoint set_nth {A} (n : nat) (v : A) (l : list A) : list A :=
  match l, n with [], _ => [] | _ :: r, O => v :: r | x :: r, S m => x :: set_nth m v r end.
Definition vset {A} (l : list A) (i : Z) (v : A) : res (list A) :=
  if (0 <=? i) && (i <? Z.of_nat (length l)) then Ok (set_nth (Z.to_nat i) v l) else Err.
(** lib/rfc/base64.scm:155-170  %digits->decode-table; the cache is left out *)
Definition digits_decode_table (d0 d1 : Z) : res (list (option Z)) :=
  if valid_digit d0 && valid_digit d1 then
    if (d0 =? 43) && (d1 =? 47) then Ok standard_decode
    else if (d0 =? 45) && (d1 =? 95) then Ok url_safe_decode
    else do v <- vset standard_decode (d0 - 32) (Some 62); vset v (d1 - 32) (Some 63)
  else Err.
(** lib/rfc/base64.scm:175-190  %digits->encode-table *)
Definition digits_encode_table (d0 d1 : Z) : res (list Z) :=
  if valid_digit d0 && valid_digit d1 then
    if (d0 =? 43) && (d1 =? 47) then Ok standard_encode
    else if (d0 =? 45) && (d1 =? 95) then Ok url_safe_encode
    else do v <- vset standard_encode 62 d0; vset v 63 d1
  else Err.

Section Encode.
Context (table : list Z) (maxcol : option Z) (omit_padding : bool).
(** the emit* macro, lib/rfc/base64.scm:251-259, 426-434: output and new column *)
Fixpoint emit (col : Z) (idxs : list Z) : list Z * Z :=
  match idxs with
  | [] => ([], col)
  | i :: r =>
    let c := tget table i in
    let nl := match maxcol with Some m => col =? m | None => false end in
    let '(o, col') := emit (if nl then 0 else col + 1) r in
    ((if nl then [c; 10] else [c]) ++ o, col')
  end.
(** lib/rfc/base64.scm:262-286  base64-encode: e0, e1, e2 *)
Fixpoint e64_0 (bs : list Z) (col : Z) : list Z :=
  match bs with
  | [] => []
  | b0 :: r => let '(o, col) := emit col [Z.shiftr b0 2] in o ++ e64_1 (Z.land b0 3) r col
  end
with e64_1 (b0 : Z) (bs : list Z) (col : Z) : list Z :=
  match bs with
  | [] => let '(o, col) := emit col [Z.shiftl b0 4] in o ++ (if omit_padding then [] else fst (emit col [64; 64]))
  | b1 :: r => let '(o, col) := emit col [Z.shiftl b0 4 + Z.shiftr b1 4] in o ++ e64_2 (Z.land b1 15) r col
  end
with e64_2 (b1 : Z) (bs : list Z) (col : Z) : list Z :=
  match bs with
  | [] => let '(o, col) := emit col [Z.shiftl b1 2] in o ++ (if omit_padding then [] else fst (emit col [64]))
  | b2 :: r => let '(o, col) := emit col [Z.shiftl b1 2 + Z.shiftr b2 6; Z.land b2 63] in o ++ e64_0 r col
  end.
(** lib/rfc/base64.scm:438-488  %base32-encode: e0 .. e4 *)
Fixpoint e32_0 (bs : list Z) (col : Z) : list Z :=
  match bs with
  | [] => []
  | b0 :: r => let '(o, col) := emit col [Z.shiftr b0 3] in o ++ e32_1 (Z.land b0 7) r col
  end
with e32_1 (b0 : Z) (bs : list Z) (col : Z) : list Z :=
  match bs with
  | [] => let '(o, col) := emit col [Z.shiftl b0 2] in o ++ (if omit_padding then [] else fst (emit col [32; 32; 32; 32; 32; 32]))
  | b1 :: r => let '(o, col) := emit col [Z.shiftl b0 2 + Z.shiftr b1 6; Z.land (Z.shiftr b1 1) 31] in o ++ e32_2 (Z.land b1 1) r col
  end
with e32_2 (b1 : Z) (bs : list Z) (col : Z) : list Z :=
  match bs with
  | [] => let '(o, col) := emit col [Z.shiftl b1 4] in o ++ (if omit_padding then [] else fst (emit col [32; 32; 32; 32]))
  | b2 :: r => let '(o, col) := emit col [Z.shiftl b1 4 + Z.shiftr b2 4] in o ++ e32_3 (Z.land b2 15) r col
  end
with e32_3 (b2 : Z) (bs : list Z) (col : Z) : list Z :=
  match bs with
  | [] => let '(o, col) := emit col [Z.shiftl b2 1] in o ++ (if omit_padding then [] else fst (emit col [32; 32; 32]))
  | b3 :: r => let '(o, col) := emit col [Z.shiftl b2 1 + Z.shiftr b3 7; Z.land (Z.shiftr b3 2) 31] in o ++ e32_4 (Z.land b3 3) r col
  end
with e32_4 (b3 : Z) (bs : list Z) (col : Z) : list Z :=
  match bs with
  | [] => let '(o, col) := emit col [Z.shiftl b3 3] in o ++ (if omit_padding then [] else fst (emit col [32]))
  | b4 :: r => let '(o, col) := emit col [Z.shiftl b3 3 + Z.shiftr b4 5; Z.land b4 31] in o ++ e32_0 r col
  end.
End Encode.

(** lib/rfc/base64.scm:249, 424; the line width is a number, or None for #f *)
Definition maxcol_of (line_width : option Z) : option Z :=
  match line_width with Some w => if 0 <? w then Some (w - 1) else None | None => None end.
Inductive alphabet := Standard | UrlSafe | Digits (d0 d1 : Z).
(** lib/rfc/base64.scm:244-288  base64-encode *)
Definition base64_encode (a : alphabet) (line_width : option Z) (omit_padding : bool) (bs : list Z) : res (list Z) :=
  do t <- match a with Standard => Ok standard_encode | UrlSafe => Ok url_safe_encode | Digits d0 d1 => digits_encode_table d0 d1 end;
  Ok (e64_0 t (maxcol_of line_width) omit_padding bs 0).
(** lib/rfc/base64.scm:423-495  base32-encode, base32hex-encode *)
Definition base32_encode (hex : bool) (line_width : option Z) (omit_padding : bool) (bs : list Z) : list Z :=
  e32_0 (if hex then base32hex_encode_table else base32_encode_table) (maxcol_of line_width) omit_padding bs 0.

Section Decode.
Context (table : list (option Z)) (strict : bool) (whitespace : Z -> bool).
(** the premature procedure, lib/rfc/base64.scm:197, 355, 549 *)
Definition premature : res (list Z) := if strict then Err else Ok [].
Definition emit_byte (b : Z) (k : res (list Z)) : res (list Z) := do l <- k; Ok (b :: l).
(** an invalid character is an error in strict mode *)
Definition bad (c : Z) : bool := strict && negb (whitespace c).

(** lib/rfc/base64.scm:212-235  base64-decode: d0 .. d3 *)
Fixpoint d64_0 (cs : list Z) : res (list Z) :=
  match cs with
  | [] => Ok []
  | c :: r => if c =? 61 then Ok [] else
    match lookup table c with
    | Some c0 => d64_1 c0 r
    | None => if bad c then Err else d64_0 r
    end
  end
with d64_1 (c0 : Z) (cs : list Z) : res (list Z) :=
  match cs with
  | [] => premature
  | c :: r => if c =? 61 then Ok [] else
    match lookup table c with
    | Some c1 => emit_byte (Z.shiftl c0 2 + Z.shiftr c1 4) (d64_2 (Z.land c1 15) r)
    | None => if bad c then Err else d64_1 c0 r
    end
  end
with d64_2 (c1 : Z) (cs : list Z) : res (list Z) :=
  match cs with
  | [] => premature
  | c :: r => if c =? 61 then Ok [] else
    match lookup table c with
    | Some c2 => emit_byte (Z.shiftl c1 4 + Z.shiftr c2 2) (d64_3 (Z.land c2 3) r)
    | None => if bad c then Err else d64_2 c1 r
    end
  end
with d64_3 (c2 : Z) (cs : list Z) : res (list Z) :=
  match cs with
  | [] => premature
  | c :: r => if c =? 61 then Ok [] else
    match lookup table c with
    | Some c3 => emit_byte (Z.shiftl c2 6 + c3) (d64_0 r)
    | None => if bad c then Err else d64_3 c2 r
    end
  end.

(** lib/rfc/base64.scm:370-409  %base32-decode: d0 .. d7.  [d7] does not read the next character
    when it skips one, and loops forever: UB stands for that. *)
Fixpoint d32_0 (cs : list Z) : res (list Z) :=
  match cs with
  | [] => Ok []
  | c :: r => if c =? 61 then Ok [] else
    match lookup table c with
    | Some c0 => d32_1 c0 r
    | None => if bad c then Err else d32_0 r
    end
  end
with d32_1 (c0 : Z) (cs : list Z) : res (list Z) :=
  match cs with
  | [] => premature
  | c :: r => if c =? 61 then Ok [] else
    match lookup table c with
    | Some c1 => emit_byte (Z.shiftl c0 3 + Z.shiftr c1 2) (d32_2 (Z.land c1 3) r)
    | None => if bad c then Err else d32_1 c0 r
    end
  end
with d32_2 (c1 : Z) (cs : list Z) : res (list Z) :=
  match cs with
  | [] => premature
  | c :: r => if c =? 61 then Ok [] else
    match lookup table c with
    | Some c2 => d32_3 c1 c2 r
    | None => if bad c then Err else d32_2 c1 r
    end
  end
with d32_3 (c1 c2 : Z) (cs : list Z) : res (list Z) :=
  match cs with
  | [] => premature
  | c :: r => if c =? 61 then Ok [] else
    match lookup table c with
    | Some c3 => emit_byte (Z.shiftl c1 6 + Z.shiftl c2 1 + Z.shiftr c3 4) (d32_4 (Z.land c3 15) r)
    | None => if bad c then Err else d32_3 c1 c2 r
    end
  end
with d32_4 (c3 : Z) (cs : list Z) : res (list Z) :=
  match cs with
  | [] => premature
  | c :: r => if c =? 61 then Ok [] else
    match lookup table c with
    | Some c4 => emit_byte (Z.shiftl c3 4 + Z.shiftr c4 1) (d32_5 (Z.land c4 1) r)
    | None => if bad c then Err else d32_4 c3 r
    end
  end
with d32_5 (c4 : Z) (cs : list Z) : res (list Z) :=
  match cs with
  | [] => premature
  | c :: r => if c =? 61 then Ok [] else
    match lookup table c with
    | Some c5 => d32_6 c4 c5 r
    | None => if bad c then Err else d32_5 c4 r
    end
  end
with d32_6 (c4 c5 : Z) (cs : list Z) : res (list Z) :=
  match cs with
  | [] => premature
  | c :: r => if c =? 61 then Ok [] else
    match lookup table c with
    | Some c6 => emit_byte (Z.shiftl c4 7 + Z.shiftl c5 2 + Z.shiftr c6 3) (d32_7 (Z.land c6 7) r)
    | None => if bad c then Err else d32_6 c4 c5 r
    end
  end
with d32_7 (c6 : Z) (cs : list Z) : res (list Z) :=
  match cs with
  | [] => premature
  | c :: r => if c =? 61 then Ok [] else
    match lookup table c with
    | Some c7 => emit_byte (Z.shiftl c6 5 + c7) (d32_0 r)
    | None => if bad c then Err else UB
    end
  end.

(** lib/rfc/base64.scm:563-569  base16-decode: d0, d1 *)
Fixpoint d16_0 (cs : list Z) : res (list Z) :=
  match cs with
  | [] => Ok []
  | c :: r =>
    match lookup table c with
    | Some b0 => d16_1 b0 r
    | None => if bad c then Err else d16_0 r
    end
  end
with d16_1 (b0 : Z) (cs : list Z) : res (list Z) :=
  match cs with
  | [] => premature
  | c :: r =>
    match lookup table c with
    | Some b1 => emit_byte (Z.shiftl b0 4 + b1) (d16_0 r)
    | None => if bad c then Err else d16_1 b0 r
    end
  end.
End Decode.

(** lib/rfc/base64.scm:192-237  base64-decode; [whitespace] is char-whitespace? *)
Definition base64_decode (a : alphabet) (strict : bool) (whitespace : Z -> bool) (cs : list Z) : res (list Z) :=
  do t <- match a with Standard => Ok standard_decode | UrlSafe => Ok url_safe_decode | Digits d0 d1 => digits_decode_table d0 d1 end;
  d64_0 t strict whitespace cs.
(** lib/rfc/base64.scm:413-416 *)
Definition base32_decode (hex : bool) (strict : bool) (whitespace : Z -> bool) (cs : list Z) : res (list Z) :=
  d32_0 (if hex then base32hex_decode_table else base32_decode_table) strict whitespace cs.
(** lib/rfc/base64.scm:547-569 *)
Definition base16_decode (strict : bool) (whitespace : Z -> bool) (cs : list Z) : res (list Z) :=
  d16_0 (if strict then base16_decode_table else base16lax_decode_table) strict whitespace cs.
(** lib/rfc/base64.scm:574-579  base16-encode *)
Definition base16_encode (lowercase : bool) (bs : list Z) : list Z :=
  let t := if lowercase then base16lc_encode_table else base16_encode_table in
  flat_map (fun b => [tget t (Z.shiftr b 4); tget t (Z.land b 15)]) bs.
