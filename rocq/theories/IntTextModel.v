(** Text of exact integers: number->string and string->number (src/number.c,
    src/bignum.c).  Strings are lists of byte values.  Flonums, ratnums, complex numbers,
    prefixes (#x, #e, ..) and '#' padding are outside the model: [RdOther]. *)
From Coq Require Import List Bool ZArith.
From Verif Require Import Outcome BignumModel IntModel.
Import ListNotations.
Local Open Scope Z_scope.

(** src/bignum.c:1246-1248, src/number.c:4410: the character of a digit *)
Definition digit_char (upper : bool) (c : Z) : Z :=
  if c <? 10 then c + 48 else if upper then c - 10 + 65 else c - 10 + 97.

(** src/number.c:4407-4414: digits of a fixnum, written backwards into a buffer of
    FLT_BUF (65) bytes; [n] is the room left *)
Fixpoint fix_digits (n : nat) (upper : bool) (base value : Z) (acc : list Z) : list Z :=
  match n with
  | O => acc
  | S m => if 0 <? value then fix_digits m upper base (Z.quot value base) (digit_char upper (Z.rem value base) :: acc) else acc
  end.
(** src/number.c:4398-4415  print_number on a fixnum *)
Definition fix_to_string (upper show_plus : bool) (base value : Z) : list Z :=
  let pre := if value <? 0 then [45] else if show_plus then [43] else [] in
  let v := if value <? 0 then - value else value in
  if v =? 0 then pre ++ [48] else pre ++ fix_digits 65 upper base v [].

(** src/bignum.c:1257-1258: drop the leading zero words.  The C loop looks at values[-1]
    once the size reaches 0, before it tests the size; that read is not modelled. *)
Fixpoint drop_zeros (rws : list Z) : list Z :=
  match rws with [] => [] | w :: t => if w =? 0 then drop_zeros t else rws end.
Definition trim (ws : list Z) : list Z := rev (drop_zeros (rev ws)).
(** src/bignum.c:1253-1259; running out of fuel is UB *)
Fixpoint big_digits (fuel : nat) (upper : bool) (radix : Z) (q : list Z) (acc : list Z) : res (list Z) :=
  match fuel with
  | O => UB
  | S f =>
    match q with
    | [] => Ok acc
    | _ => do p <- sdiv q radix;
           let rem := slong (snd p) in
           if (0 <=? rem) && (rem <? radix) then big_digits f upper radix (trim (fst p)) (digit_char upper rem :: acc)
           else Panic
    end
  end.
(** src/bignum.c:1244-1262  Scm_BignumToString *)
Definition bignum_to_string (b : bignum) (radix : Z) (upper : bool) : res (list Z) :=
  if (radix <? 2) || (36 <? radix) then Err
  else do ds <- big_digits (64 * length (words b) + 1) upper radix (words b) [];
       Ok (if sign b <? 0 then 45 :: ds else ds).
(** src/number.c:4382-4423  print_number on exact integers (no radix prefix); the base
    was checked by Scm_NumberToString, src/number.c:4499-4502 *)
Definition number_to_string (x : num) (radix : Z) (upper show_plus : bool) : res (list Z) :=
  if (radix <? 2) || (36 <? radix) then Err
  else match x with
       | Fix v => Ok (fix_to_string upper show_plus radix v)
       | Bn b => do s <- bignum_to_string b radix upper;
                 Ok (if show_plus && (0 <=? num_sign x) then 43 :: s else s)
       end.

(** src/number.c:5480-5488: (longdigs, bigdig) of a radix *)
Fixpoint bigdig_loop (fuel : nat) (radix i n : Z) : Z * Z :=
  match fuel with
  | O => (i - 1, n)
  | S f => if LONG_MAX / radix <=? n then (i - 1, n) else bigdig_loop f radix (i + 1) (uwrap (n * radix))
  end.
Definition bigdig (radix : Z) : Z * Z := bigdig_loop 64 radix 0 1.
(** src/number.c:3854-3859  ipow *)
Fixpoint ipow (r : Z) (n : nat) (k : Z) : Z := match n with O => k | S m => ipow r m (uwrap (k * r)) end.
(** src/bignum.c:1291-1313  Scm_BignumAccMultAddUI on the words of acc, whose sign is 1 *)
Definition acc_mult_add (acc : list Z) (coef c : Z) : res (list Z) :=
  let rsize := S (length acc) in
  do r <- mul_word (c :: repeat 0 (length acc)) acc coef 0;
  if last r 0 =? 0 then Ok (firstn (length acc) r)
  else do z <- make_bignum (rsize + 3); Ok (r ++ skipn rsize z).

Definition tolower (c : Z) : Z := if (65 <=? c) && (c <=? 90) then c + 32 else c.
(** src/number.c:4671-4677: position of a character in the digit table, if below radix *)
Definition digit_val (radix c : Z) : option Z :=
  let d := if (48 <=? c) && (c <=? 57) then c - 48 else if (97 <=? c) && (c <=? 122) then c - 87 else radix in
  if d <? radix then Some d else None.

Inductive ruint := RuErr | RuEnd (rest : list Z) (pad : bool) (moved underscore : bool) (vi digits : Z) (vb : option (list Z)).
(** src/number.c:4650-4693: the loop of read_uint.  [moved] is str != *strp.
    [limit] is longlimit[radix], computed with double arithmetic from
    floor(LONG_MAX/radix - radix) and left as a parameter. *)
Fixpoint ru_loop (radix limit : Z) (moved digread underscore : bool) (vi digits : Z) (vb : option (list Z)) (s : list Z) : res ruint :=
  match s with
  | [] => Ok (RuEnd [] false moved underscore vi digits vb)
  | c0 :: t =>
    let c := tolower c0 in
    if c =? 95 then
      if negb moved || underscore || (negb digread && (digits =? 0)) then Ok RuErr
      else ru_loop radix limit true digread true vi digits vb t
    else if digread && (c =? 35) then Ok (RuEnd s true moved underscore vi digits vb)
    else match digit_val radix c with
         | None => Ok (RuEnd s false moved underscore vi digits vb)
         | Some d =>
           let vi1 := uwrap (vi * radix + d) in
           let digits1 := digits + 1 in
           match vb with
           | None =>
             if limit <=? vi1 then do b <- make_bignum 4; ru_loop radix limit true true false 0 0 (Some (vi1 :: skipn 1 b)) t
             else ru_loop radix limit true true false vi1 digits1 None t
           | Some acc =>
             if fst (bigdig radix) <? digits1
             then do acc1 <- acc_mult_add acc (snd (bigdig radix)) vi1; ru_loop radix limit true true false 0 0 (Some acc1) t
             else ru_loop radix limit true true false vi1 digits1 (Some acc) t
           end
         end
  end.
Inductive rdres := RdNum (n : num) | RdFalse | RdImag (plus : bool) | RdOther.
Fixpoint skip_zeros (s : list Z) : list Z := match s with c :: t => if c =? 48 then skip_zeros t else s | [] => [] end.
(** src/number.c:4612-4710  read_uint with initval = #f, not strict, errors reported as #f:
    the value, the rest of the string and whether '#' was met *)
Definition read_uint (radix limit : Z) (s : list Z) : res (option num * list Z * bool) :=
  let z := match s with c :: _ => c =? 48 | [] => false end in
  do o <- ru_loop radix limit z z false 0 0 None (if z then skip_zeros s else s);
  match o with
  | RuErr => Ok (None, s, false)
  | RuEnd rest pad moved us vi digits vb =>
    if negb moved then Ok (None, s, false)
    else if us then Ok (None, rest, false)
    else if pad then Ok (None, rest, true)
    else match vb with
         | None => Ok (Some (make_integer (slong vi)), rest, false)
         | Some acc =>
           do acc1 <- (if 0 <? digits then acc_mult_add acc (ipow radix (Z.to_nat digits) 1) vi else Ok acc);
           Ok (Some (normalize (Big 1 acc1)), rest, false)
         end
  end.
Fixpoint starts_nocase (p s : list Z) : bool :=
  match p, s with [], _ => true | a :: p', b :: s' => (a =? tolower b) && starts_nocase p' s' | _, _ => false end.
(** src/number.c:4970-5035  read_real up to the integral part *)
Definition read_real (radix limit : Z) (s : list Z) : res rdres :=
  match s with
  | [] => Ok RdFalse
  | c :: t =>
    let minusp := c =? 45 in
    let sign_seen := minusp || (c =? 43) in
    let s1 := if sign_seen then t else s in
    match s1 with
    | [] => Ok RdFalse
    | c1 :: _ =>
      if sign_seen && (starts_nocase [105; 110; 102; 46; 48] s1 || starts_nocase [110; 97; 110; 46; 48] s1) then Ok RdOther
      else if c1 =? 46 then Ok RdOther
      else
        do r <- read_uint radix limit s1;
        match r with
        | (_, _, true) => Ok RdOther
        | (None, _, false) => Ok RdFalse
        | (Some n, [], false) => Ok (RdNum (if minusp then num_negate n else n))
        | (Some _, _ :: _, false) => Ok RdOther
        end
    end
  end.
(** src/number.c:5262-5340  read_number (string->number) without prefixes *)
Definition read_number (radix limit : Z) (s : list Z) : res rdres :=
  if (radix <? 2) || (36 <? radix) then Ok RdFalse
  else match s with
  | [] => Ok RdFalse
  | 35 :: _ => Ok RdOther
  | c :: t =>
    if (c =? 43) || (c =? 45) then
      match t with
      | [] => Ok RdFalse
      | [x] => if (x =? 105) || (x =? 73) then Ok (RdImag (c =? 43)) else read_real radix limit s
      | _ => read_real radix limit s
      end
    else read_real radix limit s
  end.
