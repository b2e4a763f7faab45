(** Substring search: src/string.c:1036-1300.  [mem] is the memory from the start of the
    text to the end of its block (a string may share a longer buffer), [siz1] the size of
    the text; [pat] is the bytes of the pattern. *)
From Coq Require Import ZArith List Bool Arith.
From Verif Require Import Outcome Utf8Model StringModel.
Import ListNotations.

Definition rdb (mem : list Z) (i : nat) : res Z := of_opt (nth_error mem i).
Definition set_shift (sh : Z -> nat) (c : Z) (v : nat) : Z -> nat := fun x => if (x =? c)%Z then v mod 256 else sh x.
(** src/string.c:1041-1044: shift[i] = siz2, then shift[ss2[j]] = siz2-j-1 for j < siz2-1;
    an array indexed by unsigned char is a function, its elements are unsigned char *)
Fixpoint bm_table (siz2 : nat) (j : nat) (l : list Z) (sh : Z -> nat) : Z -> nat :=
  match l with
  | [] => sh
  | c :: t => bm_table siz2 (S j) t (set_shift sh c (siz2 - j - 1))
  end.
(** src/string.c:1047-1048: compare backwards from (j, k); n = j+1 *)
Fixpoint cmp_back (n : nat) (mem pat : list Z) (k : nat) : res bool :=
  match n with
  | O => Ok true
  | S j => do a <- rdb mem k; do b <- rdb pat j; if (a =? b)%Z then cmp_back j mem pat (k - 1) else Ok false
  end.
(** src/string.c:1045-1051; running out of fuel is UB *)
Fixpoint bm_loop (fuel : nat) (sh : Z -> nat) (mem : list Z) (siz1 : nat) (pat : list Z) (i : nat) : res (option nat) :=
  match fuel with
  | O => UB
  | S f =>
    if i <? siz1 then
      do m <- cmp_back (length pat) mem pat i;
      if m : bool then Ok (Some (i + 1 - length pat))
      else do c <- rdb mem i; bm_loop f sh mem siz1 pat (i + sh c)
    else Ok None
  end.
Definition boyer_moore (mem : list Z) (siz1 : nat) (pat : list Z) : res (option nat) :=
  let siz2 := length pat in
  let sh := bm_table siz2 0 (firstn (siz2 - 1) pat) (fun _ => siz2 mod 256) in
  bm_loop (S siz1) sh mem siz1 pat (siz2 - 1).

(** src/string.c:1058-1061: shift[ss2[j]] = j for j = siz2-1 .. 1; [j] of the elements of
    pat, whose reversed list is given, remain *)
Fixpoint bmr_table (j : nat) (rl : list Z) (sh : Z -> nat) : Z -> nat :=
  match j, rl with
  | S j1, c :: t => bmr_table j1 t (set_shift sh c j)
  | _, _ => sh
  end.
(** src/string.c:1064-1065: compare forwards from (j, k) *)
Fixpoint cmp_fwd (pat mem : list Z) (k : nat) : res bool :=
  match pat with
  | [] => Ok true
  | b :: t => do a <- rdb mem k; if (a =? b)%Z then cmp_fwd t mem (S k) else Ok false
  end.
(** src/string.c:1062-1068 *)
Fixpoint bmr_loop (fuel : nat) (sh : Z -> nat) (mem pat : list Z) (i : nat) : res (option nat) :=
  match fuel with
  | O => UB
  | S f =>
    do m <- cmp_fwd pat mem i;
    if m : bool then Ok (Some i)
    else do c <- rdb mem i;
         if i <? sh c then Ok None else bmr_loop f sh mem pat (i - sh c)
  end.
Definition boyer_moore_reverse (mem : list Z) (siz1 : nat) (pat : list Z) : res (option nat) :=
  let siz2 := length pat in
  let sh := bmr_table (siz2 - 1) (rev pat) (fun _ => siz2 mod 256) in
  bmr_loop (siz1 + 2) sh mem pat (siz1 - siz2 + 1).

(** memcmp(s2, s1+i, siz2) == 0 *)
Fixpoint bytes_eqb (a b : list Z) : bool :=
  match a, b with [], [] => true | x :: a', y :: b' => (x =? y)%Z && bytes_eqb a' b' | _, _ => false end.
Definition memcmp0 (mem : list Z) (i : nat) (pat : list Z) : res bool :=
  if length mem <? i + length pat then UB else Ok (bytes_eqb pat (firstn (length pat) (skipn i mem))).
(** src/string.c:1120-1123: brute force from i, [n] positions remain *)
Fixpoint brute (n : nat) (mem pat : list Z) (i : nat) : res (option nat) :=
  match n with
  | O => Ok None
  | S m => do b <- memcmp0 mem i pat; if b : bool then Ok (Some i) else brute m mem pat (S i)
  end.
(** src/string.c:1160-1163: brute force downwards from i = n-1 *)
Fixpoint brute_rev (n : nat) (mem pat : list Z) : res (option nat) :=
  match n with
  | O => Ok None
  | S i => do b <- memcmp0 mem i pat; if b : bool then Ok (Some i) else brute_rev i mem pat
  end.
(** memchr over siz1 bytes *)
Fixpoint memchr (n : nat) (mem : list Z) (c : Z) (i : nat) : res (option nat) :=
  match n with
  | O => Ok None
  | S m => do a <- rdb mem i; if (a =? c)%Z then Ok (Some i) else memchr m mem c (S i)
  end.
(** src/string.c:1087-1094  my_memrchr *)
Fixpoint memrchr (n : nat) (mem : list Z) (c : Z) : res (option nat) :=
  match n with
  | O => Ok None
  | S i => do a <- rdb mem i; if (a =? c)%Z then Ok (Some i) else memrchr i mem c
  end.
(** (byte index, Some character index if already known) *)
Definition found := option (nat * option nat).
Definition byte_found (r : res (option nat)) : res found :=
  do o <- r; Ok (match o with Some i => Some (i, None) | None => None end).
(** src/string.c:1097-1132  string_search *)
Definition string_search (mem : list Z) (siz1 len1 : nat) (pat : list Z) : res found :=
  let siz2 := length pat in
  match pat with
  | [] => Ok (Some (0, Some 0))
  | [c] => byte_found (memchr siz1 mem c 0)
  | _ =>
    if siz1 <? siz2 then Ok None
    else if (siz1 <? 256) || (256 <=? siz2) then byte_found (brute (siz1 - siz2 + 1) mem pat 0)
    else byte_found (boyer_moore mem siz1 pat)
  end.
(** src/string.c:1135-1172  string_search_reverse *)
Definition string_search_reverse (mem : list Z) (siz1 len1 : nat) (pat : list Z) : res found :=
  let siz2 := length pat in
  match pat with
  | [] => Ok (Some (siz1, Some len1))
  | [c] => byte_found (memrchr siz1 mem c)
  | _ =>
    if siz1 <? siz2 then Ok None
    else if (siz1 <? 256) || (256 <=? siz2) then byte_found (brute_rev (siz1 - siz2 + 1) mem pat)
    else byte_found (boyer_moore_reverse mem siz1 pat)
  end.

Inductive scan_mode := SIndex | SCursor | SBefore | SAfter | SBefore2 | SAfter2 | SBoth.
Inductive scan_val := VFalse | VInt (n : nat) | VCursor (byte : nat) | VStr (b : body).
(** Scm_MakeString(s1 + from, size, len, incomplete): shares the buffer *)
Definition piece (b : body) (from size len : nat) (inc : bool) : res scan_val :=
  do s <- make_str len size (skipn from (b_buf b)) inc None; Ok (VStr s).
(** src/string.c:1193-1275  string_scan.  A negative size or length (possible only after
    a false match) is UB. *)
Definition string_scan (ss1 ss2 : body) (mode : scan_mode) (searcher : list Z -> nat -> nat -> list Z -> res found) : res (list scan_val) :=
  let siz1 := b_size ss1 in let len1 := b_len ss1 in
  let siz2 := b_size ss2 in let len2 := b_len ss2 in
  let pat := firstn siz2 (b_buf ss2) in
  let incomplete := b_incomplete ss1 || b_incomplete ss2 in
  do r <- (if negb incomplete && (siz1 =? len1) && negb (siz2 =? len2) then Ok None
           else searcher (b_buf ss1) siz1 len1 pat);
  match r with
  | None => Ok (match mode with SIndex | SCursor | SBefore | SAfter => [VFalse] | _ => [VFalse; VFalse] end)
  | Some (bi, known) =>
    match mode with
    | SCursor => Ok [VCursor bi]
    | _ =>
      do ci <- (match known with
                | Some c => Ok c
                | None => if incomplete then Ok bi else
                          do n <- count_length (b_buf ss1) bi;
                          match n with Some n => Ok n | None => UB end
                end);
      let after := if (siz1 <? bi + siz2) || (negb incomplete && (len1 <? ci + len2)) then UB
                   else piece ss1 (bi + siz2) (siz1 - bi - siz2) (len1 - ci - len2) incomplete in
      match mode with
      | SIndex | SCursor => Ok [VInt ci]
      | SBefore => do a <- piece ss1 0 bi ci incomplete; Ok [a]
      | SAfter => do a <- after; Ok [a]
      | SBefore2 => do a <- piece ss1 0 bi ci incomplete; do b <- piece ss1 bi (siz1 - bi) (len1 - ci) incomplete; Ok [a; b]
      | SAfter2 => do a <- piece ss1 0 (bi + siz2) (ci + len2) incomplete; do b <- after; Ok [a; b]
      | SBoth => do a <- piece ss1 0 bi ci incomplete; do b <- after; Ok [a; b]
      end
    end
  end.
(** src/string.c:1332-1359  Scm_StringSplitByCharWithLimit.  [limit]: None is negative.
    A string for the character itself stands for the C buffer. *)
Fixpoint split_by (fuel : nat) (str chs : body) (limit : option nat) : res (list body) :=
  match fuel with
  | O => UB
  | S f =>
    do v <- string_scan str chs SBoth string_search;
    match v with
    | [VStr v1; VStr v2] =>
      match limit with
      | Some 1 => Ok [v1; v2]
      | _ => do r <- split_by f v2 chs (match limit with Some n => Some (n - 1) | None => None end); Ok (v1 :: r)
      end
    | _ => Ok [str]
    end
  end.
Definition string_split_by_char (str : body) (ch : Z) (limit : option nat) : res (list body) :=
  match limit with
  | Some 0 => Ok [str]
  | _ => split_by (S (S (b_size str))) str (mkbody 1 (length (char_put ch)) (char_put ch) false None) limit
  end.
