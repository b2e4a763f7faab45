(** The external representation of data: the writer (src/write.c, src/symbol.c, src/string.c,
    src/char.c) and the reader (src/read.c).

    Texts are lists of characters (code points); a port is the list of the characters that are
    left.  The decoding of bytes is the subject of C01 and C36.  Modelled: the default reader
    lexical mode (permissive), no case folding, write controls at their defaults, no datum
    labels (write-simple, or write on data without shared parts).  Uniform vectors, arrays,
    char-sets, regexps, #, forms, #! directives, #? debug forms, #n= labels, string
    interpolation, inexact, rational and complex numbers are outside: [Outside]. *)
From Coq Require Import List Bool ZArith String Ascii.
From Verif Require Import Outcome BignumModel IntModel IntTextModel.
Import ListNotations.
Local Open Scope list_scope.
Local Open Scope Z_scope.

(** the code points of an ASCII string *)
Definition zs (s : string) : list Z := map (fun a => Z.of_N (N_of_ascii a)) (list_ascii_of_string s).

(** src/gauche/char.h (SCM_CHAR_CATEGORY_xx): Unicode general categories.  The table of
    src/char_attr.c is not reproduced: Scm_CharGeneralCategory is a parameter [gc]. *)
Inductive cat := Lu | Ll | Lt | Lm | Lo | Mn | Mc | Me | Nd | Nl | No | Pc | Pd | Ps | Pe | Pi | Pf | Po
  | Sm | Sc | Sk | So | Zs | Zl | Zp | Cc | Cf | Cs | Co | Cn.

(** data.  Numbers are exact integers; symbols are interned symbols and are identified by
    their name, keywords being symbols whose name begins with a colon (src/symbol.c:64-112);
    [DBytes] is an incomplete string. *)
Inductive datum :=
| DNil | DTrue | DFalse
| DInt (n : num)
| DChar (c : Z)
| DStr (s : list Z)
| DBytes (s : list Z)
| DSym (name : list Z)
| DPair (a d : datum)
| DVec (xs : list datum).

(** gauche.h:398 *)
Definition CHAR_MAX : Z := 1114111.
(** isxdigit *)
Definition isxdigit (c : Z) : bool := ((48 <=? c) && (c <=? 57)) || ((65 <=? c) && (c <=? 70)) || ((97 <=? c) && (c <=? 102)).
(** Scm_DigitToInt(c, 16, FALSE), src/char.c, on a hexadecimal digit *)
Definition xvalue (c : Z) : Z := if c <=? 57 then c - 48 else if c <=? 70 then c - 55 else c - 87.
(** printf %x of an unsigned int (at most 8 digits) and %0wx *)
Definition hexd (d : Z) : Z := if d <? 10 then d + 48 else d + 87.
Fixpoint hex_loop (fuel : nat) (n : Z) (acc : list Z) : list Z :=
  match fuel with
  | O => acc
  | S f => if n <? 16 then hexd n :: acc else hex_loop f (n / 16) (hexd (n mod 16) :: acc)
  end.
Definition hex (n : Z) : list Z := hex_loop 8 n [].
Definition hex_pad (w : nat) (n : Z) : list Z := let s := hex n in repeat 48 (w - List.length s) ++ s.

(** src/char.c:211-227  Scm__CharIsExtraWhiteSpace, behind the bound of SCM_CHAR_EXTRA_WHITESPACE
    (src/gauche/char_utf_8.h:128-133) *)
Definition extra_ws (intraline : bool) (c : Z) : bool :=
  (c <=? 12288) &&
  (if c <? 8192 then (c =? 160) || (c =? 5760)
   else if c <=? 8202 then true
   else (c =? 12288) || (c =? 8239) || (c =? 8287) || (negb intraline && ((c =? 8233) || (c =? 8232)))).
Definition isspace (c : Z) : bool := ((9 <=? c) && (c <=? 13)) || (c =? 32).
(** src/read.c:1142-1143 *)
Definition intraline_ws (c : Z) : bool := (c =? 32) || (c =? 9) || extra_ws true c.

(** ** Character classes *)
(** src/read.c:362-378: bit 0 says a constituent of words, bit 1 an upper case letter *)
Definition word_bits : list Z := [
  0;  0;  0;  0;  0;  0;  0;  0;  0;  0;  0;  0;  0;  0;  0;  0;
  0;  0;  0;  0;  0;  0;  0;  0;  0;  0;  0;  0;  0;  0;  0;  0;
  0;  1;  0;  0;  1;  1;  1;  0;  0;  0;  1;  1;  0;  1;  1;  1;
  1;  1;  1;  1;  1;  1;  1;  1;  1;  1;  1;  0;  1;  1;  1;  1;
  1;  3;  3;  3;  3;  3;  3;  3;  3;  3;  3;  3;  3;  3;  3;  3;
  3;  3;  3;  3;  3;  3;  3;  3;  3;  3;  3;  0;  0;  0;  1;  1;
  0;  1;  1;  1;  1;  1;  1;  1;  1;  1;  1;  1;  1;  1;  1;  1;
  1;  1;  1;  1;  1;  1;  1;  1;  1;  1;  1;  0;  0;  0;  1;  0].
(** src/char.c:311-317 and 319-414: the classes of the ASCII characters for the writer:
    1 initial, 2 subsequent, 4 sign subsequent, 8 and 16 delimiters *)
Definition lex_bits : list Z := [
  0;  0;  0;  0;  0;  0;  0;  0;  0;  0;  0;  0;  0;  0;  0;  0;
  0;  0;  0;  0;  0;  0;  0;  0;  0;  0;  0;  0;  0;  0;  0;  0;
  8;  7;  8;  0;  7;  7;  7;  16; 8;  8;  7;  6;  16; 6;  2;  7;
  2;  2;  2;  2;  2;  2;  2;  2;  2;  2;  7;  8;  7;  7;  7;  7;
  6;  7;  7;  7;  7;  7;  7;  7;  7;  7;  7;  7;  7;  7;  7;  7;
  7;  7;  7;  7;  7;  7;  7;  7;  7;  7;  7;  16; 0;  16; 7;  7;
  16; 7;  7;  7;  7;  7;  7;  7;  7;  7;  7;  7;  7;  7;  7;  7;
  7;  7;  7;  7;  7;  7;  7;  7;  7;  7;  7;  16; 8;  16; 7;  0].
Inductive lexcat := INITIAL | SUBSEQUENT | SIGN_SUBSEQUENT.
Definition lex_bit (k : lexcat) : Z := match k with INITIAL => 0 | SUBSEQUENT => 1 | SIGN_SUBSEQUENT => 2 end.
(** the categories both switches accept (src/read.c:388-405, src/char.c:436-453) *)
Definition word_cat (k : cat) : bool :=
  match k with Lu | Ll | Lt | Lm | Lo | Mn | Nl | No | Pd | Pc | Po | Sc | Sm | Sk | So | Co => true | _ => false end.

Section Rw.
(** Scm_CharGeneralCategory, and the entry of the table longlimit for radix 10 (IntTextModel) *)
Variable gc : Z -> cat.
Variable limit : Z.

(** src/read.c:381-408  char_word_constituent; end of file is not a character here *)
Definition constituent (hash : bool) (c : Z) : bool :=
  if c <? 128 then Z.testbit (nth (Z.to_nat c) word_bits 0) 0 || ((c =? 35) && hash)
  else if (c =? 8204) || (c =? 8205) then true
  else word_cat (gc c).
(** src/read.c:410-415  char_word_case_fold *)
Definition case_fold_p (c : Z) : bool := (c <? 128) && Z.testbit (nth (Z.to_nat c) word_bits 0) 1.
(** src/char.c:418-461  Scm_CharLexerCategoryP *)
Definition lexer_category (c : Z) (k : lexcat) : bool :=
  if c <? 128 then Z.testbit (nth (Z.to_nat c) lex_bits 0) (lex_bit k)
  else if (c =? 8204) || (c =? 8205) then true
  else if word_cat (gc c) then true
  else match gc c with
       | Nd | Mc | Me => match k with INITIAL => false | _ => true end
       | _ => false
       end.

(** ** The writer *)
(** src/string.c:1480-1521  string_putc *)
Definition string_putc (bytemode : bool) (ch : Z) : list Z :=
  if ch =? 92 then [92; 92]
  else if ch =? 34 then [92; 34]
  else if ch =? 10 then [92; 110]
  else if ch =? 9 then [92; 116]
  else if ch =? 13 then [92; 114]
  else if ch =? 12 then [92; 102]
  else if ch =? 0 then [92; 48]
  else if (ch <? 128) || bytemode then
    if (ch <? 32) || (ch =? 127) || bytemode then [92; 120] ++ hex_pad 2 ch ++ [59] else [ch]
  else match gc ch with
       | Cc | Cf | Cs | Co | Cn => if ch <? 65536 then [92; 120] ++ hex_pad 4 ch ++ [59] else [92; 120] ++ hex ch ++ [59]
       | _ => [ch]
       end.
(** src/string.c:1523-1570  string_print in write mode, without a length limit.  A complete
    string is written character by character in both branches (its single-byte
    characters are the ASCII ones); an incomplete one byte by byte. *)
Definition write_string (s : list Z) : list Z := [34] ++ flat_map (string_putc false) s ++ [34].
Definition write_bytes (s : list Z) : list Z := zs "#**" ++ [34] ++ flat_map (string_putc true) s ++ [34].

(** src/symbol.c:162-215  escape_required_p with flags 0 and no case folding.  The C code
    looks at the bytes; the ASCII ones are the characters. *)
Definition all_subsequent (s : list Z) : bool := forallb (fun c => lexer_category c SUBSEQUENT) s.
(** src/symbol.c:192-201: after a dot *)
Definition esc_dot (s : list Z) : bool :=
  match s with
  | [] => true
  | ch :: t => if negb (ch =? 46) && negb (lexer_category ch SIGN_SUBSEQUENT) then true else negb (all_subsequent t)
  end.
(** src/symbol.c:179-186 *)
Definition nan_inf (p : list Z) : bool :=
  match p with
  | p0 :: p1 :: p2 :: p3 :: p4 :: _ =>
    (p3 =? 46) && (p4 =? 48) &&
    ((((p0 =? 110) || (p0 =? 78)) && ((p1 =? 97) || (p1 =? 65)) && ((p2 =? 110) || (p2 =? 78)))
     || (((p0 =? 105) || (p0 =? 73)) && ((p1 =? 110) || (p1 =? 78)) && ((p2 =? 102) || (p2 =? 70))))
  | _ => false
  end.
Definition escape_required (name : list Z) : bool :=
  match name with
  | [] => true
  | c :: p =>
    if (c =? 43) || (c =? 45) then
      match p with
      | [] => false
      | p0 :: t =>
        if p0 =? 46 then esc_dot t
        else if (match t with [] => true | _ => false end) && ((p0 =? 105) || (p0 =? 73)) then true
        else if nan_inf p then true
        else if negb (lexer_category p0 SIGN_SUBSEQUENT) then true
        else negb (all_subsequent t)
      end
    else if c =? 46 then esc_dot p
    else if negb (lexer_category c INITIAL) then true
    else negb (all_subsequent p)
  end.
(** src/symbol.c:235-252: a character between the bars *)
Definition symbol_putc (ch : Z) : list Z :=
  if ch <? 128 then
    if (ch =? 124) || (ch =? 92) then [92; ch]
    else if (ch <? 32) || (ch =? 127) then [92; 120] ++ hex_pad 2 ch ++ [59]
    else [ch]
  else [ch].
(** src/symbol.c:218-257  Scm_WriteSymbolName with flags 0 *)
Definition write_symbol (name : list Z) : list Z :=
  match name with
  | [] => [124; 124]
  | _ => if escape_required name then [124] ++ flat_map symbol_putc name ++ [124] else name
  end.

(** src/write.c:412-418: the names of the first 33 characters *)
Definition low_names : list (list Z) :=
  [zs "null"; zs "x01"; zs "x02"; zs "x03"; zs "x04"; zs "x05"; zs "x06"; zs "alarm";
   zs "backspace"; zs "tab"; zs "newline"; zs "x0b"; zs "x0c"; zs "return"; zs "x0e"; zs "x0f";
   zs "x10"; zs "x11"; zs "x12"; zs "x13"; zs "x14"; zs "x15"; zs "x16"; zs "x17";
   zs "x18"; zs "x19"; zs "x1a"; zs "escape"; zs "x1c"; zs "x1d"; zs "x1e"; zs "x1f";
   zs "space"].
(** src/write.c:426-470  write_char in write mode *)
Definition write_char (ch : Z) : list Z :=
  [35; 92] ++
  (if ch <=? 32 then nth (Z.to_nat ch) low_names []
   else if ch =? 127 then zs "delete"
   else match gc ch with
        | Mn | Mc | Me | Zs | Zl | Zp | Cc | Cf | Cs | Co | Cn => [120] ++ hex_pad 4 ch
        | _ => [ch]
        end).

(** src/write.c:476-533  Scm__WritePrimitive, and the printers of strings, symbols and the
    empty vector (src/vector.c:75-84).  The decimal text of a fixnum comes from printf. *)
Definition write_atom (d : datum) : res (list Z) :=
  match d with
  | DNil => Ok (zs "()")
  | DTrue => Ok (zs "#t")
  | DFalse => Ok (zs "#f")
  | DInt n => number_to_string n 10 false false
  | DChar c => Ok (write_char c)
  | DStr s => Ok (write_string s)
  | DBytes s => Ok (write_bytes s)
  | DSym name => Ok (write_symbol name)
  | DVec _ => Ok (zs "#()")
  | DPair _ _ => UB
  end.
(** src/write.c:690-712: (quote x) and the like *)
Definition quote_prefix (a d : datum) : option (list Z * datum) :=
  match a, d with
  | DSym s, DPair x DNil =>
    if list_eq_dec Z.eq_dec s (zs "quote") then Some ([39], x)
    else if list_eq_dec Z.eq_dec s (zs "quasiquote") then Some ([96], x)
    else if list_eq_dec Z.eq_dec s (zs "unquote") then Some ([44], x)
    else if list_eq_dec Z.eq_dec s (zs "unquote-splicing") then Some ([44; 64], x)
    else None
  | _, _ => None
  end.
(** src/write.c:609 *)
Definition STACK_LIMIT : Z := 16777216.
(** the entries of the stack of write_rec: the rest of a list, or the elements of a vector
    from the index on *)
Inductive frame := FList (v : datum) | FVec (xs : list datum).
Inductive wstate := W1 (obj : datum) | WNext.
(** src/write.c:614-836  write_rec without a shared table: [W1] is the label write1, [WNext]
    the loop at next.  Running out of fuel is UB. *)
Fixpoint write_rec (fuel : nat) (st : wstate) (stack : list frame) (out : list Z) : res (list Z) :=
  match fuel with
  | O => UB
  | S f =>
    match st with
    | W1 (DPair a d) =>
      match quote_prefix a d with
      | Some (p, x) => write_rec f (W1 x) stack (out ++ p)
      | None => if STACK_LIMIT <? Z.of_nat (S (List.length stack)) then Err
                else write_rec f (W1 a) (FList d :: stack) (out ++ [40])
      end
    | W1 (DVec (x :: xs)) =>
      if STACK_LIMIT <? Z.of_nat (S (List.length stack)) then Err
      else write_rec f (W1 x) (FVec xs :: stack) (out ++ [35; 40])
    | W1 a => do s <- write_atom a; write_rec f WNext stack (out ++ s)
    | WNext =>
      match stack with
      | [] => Ok out
      | FVec [] :: k => write_rec f WNext k (out ++ [41])
      | FVec (x :: xs) :: k => write_rec f (W1 x) (FVec xs :: k) (out ++ [32])
      | FList DNil :: k => write_rec f WNext k (out ++ [41])
      | FList (DPair a d) :: k => write_rec f (W1 a) (FList d :: k) (out ++ [32])
      | FList (DVec xs) :: k =>
        do s <- write_rec f (W1 (DVec xs)) [] []; write_rec f WNext k (out ++ zs " . " ++ s ++ [41])
      | FList v :: k => write_rec f (W1 v) (FList DNil :: k) (out ++ zs " . ")
      end
    end
  end.
(** write-simple *)
Definition write (fuel : nat) (d : datum) : res (list Z) := write_rec fuel (W1 d) [] [].

(** ** The reader *)
(** what a reading function gives: a read error, text outside the model, no fuel left, end of
    file, or a value and the text that is left *)
Inductive rr (A : Type) := Fail | Outside | NoFuel | Eof | Got (a : A) (rest : list Z).
Arguments Fail {A}. Arguments Outside {A}. Arguments NoFuel {A}. Arguments Eof {A}. Arguments Got {A} a rest.

Inductive xkey := Kx | Ku | KU.
Inductive xres := XInvalid | XChar (c : Z) (next : list Z).
Inductive xloop := XRet (r : xres) | XBreak (i : nat) (val : Z) (overflow : bool) (rest : list Z).
(** src/read.c:797-813; [val] is an int there, and wraps (in practice) beyond 8 digits *)
Fixpoint xd_loop (terminator : bool) (i : nat) (val : Z) (overflow : bool) (buf : list Z) : xloop :=
  match buf with
  | [] => XBreak i val overflow []
  | b :: t =>
    if isxdigit b then
      let v := val * 16 + xvalue b in xd_loop terminator (S i) v (overflow || (CHAR_MAX <? v)) t
    else if terminator && (b =? 59) && (0 <? i)%nat then XRet (if overflow then XInvalid else XChar val t)
    else if terminator && (i <? 2)%nat then XRet XInvalid
    else XBreak i val overflow buf
  end.
(** src/read.c:828-838: a fixed number of digits *)
Fixpoint xd_fixed (n : nat) (val : Z) (buf : list Z) : xres :=
  match n with
  | O => XChar val buf
  | S m => match buf with
           | [] => XInvalid
           | b :: t => if isxdigit b then
                         let v := val * 16 + xvalue b in if CHAR_MAX <? v then XInvalid else xd_fixed m v t
                       else XInvalid
           end
  end.
(** src/read.c:784-840  Scm_ReadXdigitsFromString in permissive mode *)
Definition read_xdigits (key : xkey) (terminator : bool) (buf : list Z) : xres :=
  match key with
  | Kx =>
    match xd_loop terminator 0 0 false buf with
    | XRet r => r
    | XBreak _ val overflow [] =>
      if negb terminator then if overflow then XInvalid else XChar val [] else xd_fixed 2 0 buf
    | XBreak _ _ _ _ => xd_fixed 2 0 buf
    end
  | Ku => xd_fixed 4 0 buf
  | KU => xd_fixed 8 0 buf
  end.
(** src/read.c:850-862: the digits, and the semicolon if it follows *)
Fixpoint xd_span (inp : list Z) : list Z * list Z :=
  match inp with
  | [] => ([], [])
  | c :: t => if c =? 59 then ([59], t)
              else if (128 <=? c) || negb (isxdigit c) then ([], inp)
              else let (a, b) := xd_span t in (c :: a, b)
  end.
(** src/read.c:844-881  Scm_ReadXdigitsFromPort: the characters added to the buffer, and the
    text that is left *)
Definition read_xdigits_port (key : xkey) (inp : list Z) : option (list Z * list Z) :=
  let (chars, rest) := xd_span inp in
  match read_xdigits key true chars with
  | XInvalid => None
  | XChar r next => Some (r :: next, rest)
  end.

(** src/read.c:1131-1235  read_string: the labels of its loop.  In an incomplete string the
    input is read by bytes, which are the characters as long as they are ASCII. *)
Inductive sstate := SNormal | SBackslash | SLineWs | SContCr | SContLf.
Fixpoint read_string (fuel : nat) (st : sstate) (acc inp : list Z) : rr (list Z) :=
  match fuel with
  | O => NoFuel
  | S f =>
    match inp with
    | [] => Fail
    | c :: t =>
      match st with
      | SNormal => if c =? 34 then Got acc t
                   else if c =? 92 then read_string f SBackslash acc t
                   else read_string f SNormal (acc ++ [c]) t
      | SBackslash =>
        if c =? 110 then read_string f SNormal (acc ++ [10]) t
        else if c =? 114 then read_string f SNormal (acc ++ [13]) t
        else if c =? 102 then read_string f SNormal (acc ++ [12]) t
        else if c =? 116 then read_string f SNormal (acc ++ [9]) t
        else if c =? 97 then read_string f SNormal (acc ++ [7]) t
        else if c =? 98 then read_string f SNormal (acc ++ [8]) t
        else if c =? 92 then read_string f SNormal (acc ++ [92]) t
        else if c =? 48 then read_string f SNormal (acc ++ [0]) t
        else if c =? 120 then
          match read_xdigits_port Kx t with None => Fail | Some (cs, r) => read_string f SNormal (acc ++ cs) r end
        else if c =? 117 then
          match read_xdigits_port Ku t with None => Fail | Some (cs, r) => read_string f SNormal (acc ++ cs) r end
        else if c =? 85 then
          match read_xdigits_port KU t with None => Fail | Some (cs, r) => read_string f SNormal (acc ++ cs) r end
        else if (c =? 32) || (c =? 9) then read_string f SLineWs acc t
        else if c =? 13 then read_string f SContCr acc t
        else if c =? 10 then read_string f SContLf acc t
        else if extra_ws true c then read_string f SLineWs acc t
        else read_string f SNormal (acc ++ [c]) t
      | SLineWs =>
        if c =? 13 then read_string f SContCr acc t
        else if c =? 10 then read_string f SContLf acc t
        else if negb (intraline_ws c) then Fail
        else read_string f SLineWs acc t
      | SContCr =>
        if c =? 34 then Got acc t
        else if c =? 92 then read_string f SBackslash acc t
        else if negb (c =? 10) && negb (intraline_ws c) then read_string f SNormal (acc ++ [c]) t
        else read_string f SContLf acc t
      | SContLf =>
        if c =? 34 then Got acc t
        else if c =? 92 then read_string f SBackslash acc t
        else if negb (intraline_ws c) then read_string f SNormal (acc ++ [c]) t
        else read_string f SContLf acc t
      end
    end
  end.

(** src/read.c:1357-1380  read_word after the initial character: the word and the text that
    is left *)
Fixpoint read_word (fold hash : bool) (inp : list Z) : list Z * list Z :=
  match inp with
  | [] => ([], [])
  | c :: t => if constituent hash c then
                let (w, r) := read_word fold hash t in ((if fold && case_fold_p c then tolower c else c) :: w, r)
              else ([], inp)
  end.
(** the same with an initial character *)
Definition read_word_from (fold hash : bool) (initial : Z) (inp : list Z) : list Z * list Z :=
  let (w, r) := read_word fold hash inp in ((if fold && case_fold_p initial then tolower initial else initial) :: w, r).

(** src/read.c:1240-1266: character names *)
Definition char_names : list (list Z * Z) :=
  [(zs "alarm", 7); (zs "backspace", 8); (zs "space", 32); (zs "newline", 10); (zs "nl", 10); (zs "lf", 10);
   (zs "return", 13); (zs "cr", 13); (zs "tab", 9); (zs "ht", 9); (zs "page", 12); (zs "escape", 27);
   (zs "esc", 27); (zs "delete", 127); (zs "del", 127); (zs "null", 0)].
Fixpoint find_name (w : list Z) (tab : list (list Z * Z)) : option Z :=
  match tab with
  | [] => None
  | (n, c) :: t => if list_eq_dec Z.eq_dec n w then Some c else find_name w t
  end.
(** src/read.c:1268-1345  read_char *)
Definition read_char (inp : list Z) : rr datum :=
  match inp with
  | [] => Fail
  | c :: t =>
    if existsb (Z.eqb c) [40; 41; 91; 93; 123; 125; 34; 32; 92; 124; 59; 35] then Got (DChar c) t
    else
      let (name, rest) := read_word_from true false c t in
      match name with
      | [_] => Got (DChar c) rest
      | n0 :: n1 :: n' =>
        if existsb (fun x => 128 <=? x) name then Fail
        else if (n0 =? 120) && isxdigit n1 then
          match read_xdigits Kx false (n1 :: n') with XChar code [] => Got (DChar code) rest | _ => Fail end
        else if (n0 =? 117) && isxdigit n1 then
          if (5 <=? List.length name)%nat && (List.length name <=? 9)%nat then
            match read_xdigits Kx false (n1 :: n') with XChar code [] => Got (DChar code) rest | _ => Fail end
          else Fail
        else match find_name name char_names with Some code => Got (DChar code) rest | None => Fail end
      | [] => Fail
      end
  end.

(** Scm_StringToNumber with radix 10 (src/number.c:5402-5445, 5262-5400): an integer, #f, or
    another number.  IntTextModel.read_number covers prefixes of the text other than a
    decimal point; the part of read_real that reads a fraction without integral part
    (src/number.c:5067-5107) is added here. *)
Inductive snum := SInt (n : num) | SFalse | SOther.
Definition after_sign (s : list Z) : list Z := match s with c :: t => if (c =? 43) || (c =? 45) then t else s | [] => [] end.
Definition string_to_number (s : list Z) : res snum :=
  if existsb (fun x => 128 <=? x) s then Ok SFalse
  else if match after_sign s with c :: _ => c =? 46 | [] => false end then
    match tl (after_sign s) with
    | [] => Ok SFalse
    | t => do r <- read_uint 10 limit t;
           match r with (None, _, false) => Ok SFalse | _ => Ok SOther end
    end
  else do r <- read_number 10 limit s;
       match r with RdNum n => Ok (SInt n) | RdFalse => Ok SFalse | _ => Ok SOther end.
(** src/read.c:1387-1394 check_valid_symbol and Scm_Intern *)
Definition intern_valid (s rest : list Z) : rr datum := if existsb (Z.eqb 35) s then Fail else Got (DSym s) rest.
(** src/read.c:1397-1402  read_symbol *)
Definition read_symbol (initial : Z) (inp : list Z) : rr datum :=
  let (s, rest) := read_word_from false true initial inp in intern_valid s rest.
(** src/read.c:1458-1469  read_symbol_or_number *)
Definition read_symbol_or_number (initial : Z) (inp : list Z) : rr datum :=
  let (s, rest) := read_word_from false true initial inp in
  match string_to_number s with
  | Ok (SInt n) => Got (DInt n) rest
  | Ok SFalse => intern_valid s rest
  | _ => Outside
  end.
(** src/read.c:1486-1535  read_escaped_symbol *)
Fixpoint read_escaped (fuel : nat) (acc inp : list Z) : rr (list Z) :=
  match fuel with
  | O => NoFuel
  | S f =>
    match inp with
    | [] => Fail
    | c :: t =>
      if c =? 124 then Got acc t
      else if c =? 92 then
        match t with
        | [] => Fail
        | e :: t' =>
          if e =? 120 then
            match read_xdigits_port Kx t' with None => Fail | Some (cs, r) => read_escaped f (acc ++ cs) r end
          else read_escaped f (acc ++ [if e =? 97 then 7 else if e =? 98 then 8 else if e =? 116 then 9
                                       else if e =? 110 then 10 else if e =? 114 then 13 else e]) t'
        end
      else read_escaped f (acc ++ [c]) t
    end
  end.
(** src/read.c:1471-1484  read_keyword *)
Definition read_keyword (fuel : nat) (inp : list Z) : rr datum :=
  if match inp with c :: _ => c =? 124 | [] => false end then
    match read_escaped fuel [] (tl inp) with Got s r => Got (DSym (58 :: s)) r | Eof => Eof | NoFuel => NoFuel | Outside => Outside | Fail => Fail end
  else let (w, r) := read_word false false inp in Got (DSym (58 :: w)) r.
(** src/read.c:1847-1905  read_sharp_word_1 for t and f *)
Definition read_sharp_word (ch : Z) (inp : list Z) : rr datum :=
  let (w, rest) := read_word_from true false ch inp in
  if ch =? 116 then
    match w with [_] => Got DTrue rest | _ => if list_eq_dec Z.eq_dec w (zs "true") then Got DTrue rest else Fail end
  else if ch =? 102 then
    match w with [_] => Got DFalse rest | _ => if list_eq_dec Z.eq_dec w (zs "false") then Got DFalse rest else Outside end
  else Outside.

(** src/read.c:465-495  skipws, with the comments from a semicolon to the end of the line;
    the character it returns is left in place *)
Fixpoint skipws (comment : bool) (inp : list Z) : list Z :=
  match inp with
  | [] => []
  | c :: t =>
    if comment then skipws (negb (c =? 10)) t
    else if c <=? 127 then if isspace c then skipws false t else if c =? 59 then skipws true t else inp
    else if extra_ws false c then skipws false t else inp
  end.
(** src/read.c:432-463  read_nested_comment, at the top of its loop with the character read:
    [prev] is the character carried over by "c = c1; continue" *)
Fixpoint nested_comment (depth : nat) (prev : Z) (inp : list Z) : option (list Z) :=
  match inp with
  | [] => None
  | c :: t =>
    if (prev =? 35) && (c =? 124) then nested_comment (S depth) 0 t
    else if (prev =? 124) && (c =? 35) then match depth with O => Some t | S d => nested_comment d 0 t end
    else nested_comment depth c t
  end.

(** a list from the elements read so far (in reverse) and the part after the dot *)
Definition close_list (acc : list datum) (tail : option datum) : datum :=
  fold_left (fun d a => DPair a d) acc (match tail with Some d => d | None => DNil end).
(** Scm_ListToVector: the elements of a proper list *)
Fixpoint list_elements (d : datum) : option (list datum) :=
  match d with
  | DNil => Some []
  | DPair a d' => match list_elements d' with Some l => Some (a :: l) | None => None end
  | _ => None
  end.
Definition quoted (s : list Z) (x : datum) : datum := DPair (DSym s) (DPair x DNil).
Definition some_datum (r : rr datum) : rr (option datum) :=
  match r with Got d rest => Got (Some d) rest | Fail => Fail | Outside => Outside | NoFuel => NoFuel | Eof => Eof end.
Definition map_got {A B} (f : A -> B) (r : rr A) : rr B :=
  match r with Got d rest => Got (f d) rest | Fail => Fail | Outside => Outside | NoFuel => NoFuel | Eof => Eof end.
(** src/read.c:1069-1087  read_quoted, given what read_item returned *)
Definition finish_quoted (s : list Z) (r : rr datum) : rr (option datum) :=
  match r with Got d rest => Got (Some (quoted s d)) rest | Eof => Fail | Fail => Fail | Outside => Outside | NoFuel => NoFuel end.

(** src/read.c:507-721 read_internal (None is a comment), 723-729 read_item, and 948-1006
    read_list_int, which gives the elements in reverse and the part after the dot *)
Fixpoint read_internal (fuel : nat) (inp : list Z) {struct fuel} : rr (option datum) :=
  match fuel with
  | O => NoFuel
  | S f =>
    match skipws false inp with
    | [] => Eof
    | c :: t =>
      if c =? 40 then map_got (fun p => Some (close_list (fst p) (snd p))) (read_list_int f 41 [] None t)
      else if c =? 34 then map_got (fun s => Some (DStr s)) (read_string (S (List.length t)) SNormal [] t)
      else if c =? 35 then
        match t with
        | [] => Fail
        | c1 :: t1 =>
          if (c1 =? 116) || (c1 =? 84) then some_datum (read_sharp_word 116 t1)
          else if (c1 =? 102) || (c1 =? 70) then some_datum (read_sharp_word 102 t1)
          else if c1 =? 40 then
            match read_list_int f 41 [] None t1 with
            | Got p rest => match list_elements (close_list (fst p) (snd p)) with Some l => Got (Some (DVec l)) rest | None => Fail end
            | Fail => Fail | Outside => Outside | NoFuel => NoFuel | Eof => Eof
            end
          else if c1 =? 92 then some_datum (read_char t1)
          else if c1 =? 124 then match nested_comment 0 0 t1 with Some rest => Got None rest | None => Fail end
          else if c1 =? 42 then
            match t1 with
            | c2 :: t2 =>
              if c2 =? 42 then
                match t2 with
                | c3 :: t3 => if c3 =? 34 then map_got (fun s => Some (DBytes s)) (read_string (S (List.length t3)) SNormal [] t3) else Fail
                | [] => Fail
                end
              else if c2 =? 34 then map_got (fun s => Some (DBytes s)) (read_string (S (List.length t2)) SNormal [] t2)
              else Outside
            | [] => Outside
            end
          else if c1 =? 59 then
            match read_item f t1 with
            | Got _ rest => Got None rest
            | Eof => Got None []
            | Fail => Fail | Outside => Outside | NoFuel => NoFuel
            end
          else Outside
        end
      else if c =? 39 then finish_quoted (zs "quote") (read_item f t)
      else if c =? 96 then finish_quoted (zs "quasiquote") (read_item f t)
      else if c =? 58 then some_datum (read_keyword (S (List.length t)) t)
      else if c =? 44 then
        match t with
        | [] => Fail
        | c1 :: t1 => if c1 =? 64 then finish_quoted (zs "unquote-splicing") (read_item f t1)
                      else finish_quoted (zs "unquote") (read_item f t)
        end
      else if c =? 124 then map_got (fun s => Some (DSym s)) (read_escaped (S (List.length t)) [] t)
      else if c =? 91 then map_got (fun p => Some (close_list (fst p) (snd p))) (read_list_int f 93 [] None t)
      else if c =? 123 then map_got (fun p => Some (close_list (fst p) (snd p))) (read_list_int f 125 [] None t)
      else if (c =? 43) || (c =? 45) then some_datum (read_symbol_or_number c t)
      else if c =? 46 then
        match t with
        | c1 :: _ => if constituent false c1 then some_datum (read_symbol_or_number c t) else Fail
        | [] => Fail
        end
      else if (48 <=? c) && (c <=? 57) then some_datum (read_symbol_or_number c t)
      else if (c =? 41) || (c =? 93) || (c =? 125) then Fail
      else some_datum (read_symbol c t)
    end
  end
with read_item (fuel : nat) (inp : list Z) {struct fuel} : rr datum :=
  match fuel with
  | O => NoFuel
  | S f =>
    match read_internal f inp with
    | Got (Some d) rest => Got d rest
    | Got None rest => read_item f rest
    | Fail => Fail | Outside => Outside | NoFuel => NoFuel | Eof => Eof
    end
  end
with read_list_int (fuel : nat) (closer : Z) (acc : list datum) (tail : option datum) (inp : list Z) {struct fuel}
     : rr (list datum * option datum) :=
  match fuel with
  | O => NoFuel
  | S f =>
    match skipws false inp with
    | [] => Fail
    | c :: t =>
      if c =? closer then Got (acc, tail) t
      else if c =? 46 then
        match tail with
        | Some _ => Fail
        | None =>
          match t with
          | [] => Fail
          | c2 :: _ =>
            if c2 =? closer then Fail
            else if negb (constituent false c2) then
              match acc with
              | [] => Fail
              | _ => match read_item f t with
                     | Got d rest => read_list_int f closer acc (Some d) rest
                     | Eof => Fail
                     | Fail => Fail | Outside => Outside | NoFuel => NoFuel
                     end
              end
            else match read_symbol_or_number c t with
                 | Got d rest => read_list_int f closer (d :: acc) None rest
                 | Fail => Fail | Outside => Outside | NoFuel => NoFuel | Eof => Eof
                 end
          end
        end
      else match read_internal f (c :: t) with
           | Got None rest => read_list_int f closer acc tail rest
           | Got (Some d) rest => match tail with Some _ => Fail | None => read_list_int f closer (d :: acc) None rest end
           | Eof => Fail
           | Fail => Fail | Outside => Outside | NoFuel => NoFuel
           end
    end
  end.
(** read: every reading function consumes a character before it calls another one *)
Definition read (inp : list Z) : rr datum := read_item (4 * List.length inp + 4) inp.
End Rw.
Arguments Fail {A}. Arguments Outside {A}. Arguments NoFuel {A}. Arguments Eof {A}. Arguments Got {A} a rest.
