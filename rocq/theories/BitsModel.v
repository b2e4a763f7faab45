(** Packed bit arrays: src/bits.c, src/gauche/bits.h, src/gauche/bits_inline.h (64-bit
    long).  [mem] is a memory of 64-bit words; a ScmBits pointer is a word offset in it,
    so several arrays may overlap.  Accesses outside the memory are UB. *)
From Coq Require Import ZArith List Bool Arith.
From Verif Require Import Outcome.
Import ListNotations.
Local Open Scope Z_scope.

Definition wrd (mem : list Z) (i : nat) : res Z := of_opt (nth_error mem i).
Definition wwr (mem : list Z) (i : nat) (w : Z) : res (list Z) :=
  if (i <? length mem)%nat then Ok (firstn i mem ++ w :: skipn (S i) mem) else UB.
(** ~w, 1UL<<n, (1UL<<n)-1 on unsigned 64-bit words; n < 64 *)
Definition ALL1 : Z := Z.ones 64.
Definition cpl (w : Z) : Z := Z.lxor w ALL1.
Definition low_mask (n : nat) : Z := Z.ones (Z.of_nat n).
(** bits.h:66-84 *)
Definition test_in_word (w : Z) (i : nat) : bool := negb (Z.land w (2 ^ Z.of_nat i) =? 0).
Definition set_in_word (w : Z) (i : nat) : Z := Z.lor w (2 ^ Z.of_nat i).
Definition reset_in_word (w : Z) (i : nat) : Z := Z.land w (cpl (2 ^ Z.of_nat i)).
Definition bits_test (mem : list Z) (p i : nat) : res bool := do w <- wrd mem (p + i / 64)%nat; Ok (test_in_word w (i mod 64)).
Definition bits_set (mem : list Z) (p i : nat) : res (list Z) := do w <- wrd mem (p + i / 64)%nat; wwr mem (p + i / 64)%nat (set_in_word w (i mod 64)).
Definition bits_reset (mem : list Z) (p i : nat) : res (list Z) := do w <- wrd mem (p + i / 64)%nat; wwr mem (p + i / 64)%nat (reset_in_word w (i mod 64)).
(** bits.h:91-92  SCM_BITS_MASK(s, e) *)
Definition bits_mask (s e : nat) : Z := Z.land (if (e =? 0)%nat then ALL1 else low_mask e) (cpl (low_mask s)).

(** src/bits.c:52-74  Scm_BitsCopyX *)
Fixpoint copy_words (n : nat) (mem : list Z) (tw sw : nat) : res (list Z) :=
  match n with
  | O => Ok mem
  | S m => do w <- wrd mem sw; do mem1 <- wwr mem tw w; copy_words m mem1 (S tw) (S sw)
  end.
Fixpoint copy_bits (n : nat) (mem : list Z) (tp t sp s : nat) : res (list Z) :=
  match n with
  | O => Ok mem
  | S m => do b <- bits_test mem sp s;
           do mem1 <- (if b : bool then bits_set mem tp t else bits_reset mem tp t);
           copy_bits m mem1 tp (S t) sp (S s)
  end.
Definition bits_copyx (mem : list Z) (tp tstart sp sstart send : nat) : res (list Z) :=
  if ((tstart mod 64 =? 0) && (sstart mod 64 =? 0) && (send mod 64 =? 0))%nat
  then copy_words (send / 64 - sstart / 64) mem (tp + tstart / 64) (sp + sstart / 64)
  else copy_bits (send - sstart) mem tp tstart sp sstart.

(** src/bits.c:76-99  Scm_BitsFill *)
Fixpoint fill_words (n : nat) (mem : list Z) (w : nat) (v : Z) : res (list Z) :=
  match n with
  | O => Ok mem
  | S m => do mem1 <- wwr mem w v; fill_words m mem1 (S w) v
  end.
Definition bits_fill (mem : list Z) (p start end_ : nat) (b : bool) : res (list Z) :=
  let sw := (start / 64)%nat in let ew := (end_ / 64)%nat in
  let sb := (start mod 64)%nat in let eb := (end_ mod 64)%nat in
  if (sw =? ew)%nat then
    let mask := Z.land (low_mask eb) (cpl (low_mask sb)) in
    do w <- wrd mem (p + sw)%nat;
    wwr mem (p + sw)%nat (if b then Z.lor w mask else Z.land w (cpl mask))
  else
    do w <- wrd mem (p + sw)%nat;
    do mem1 <- wwr mem (p + sw)%nat (if b then Z.lor w (cpl (low_mask sb)) else Z.land w (low_mask sb));
    do mem2 <- fill_words (ew - S sw) mem1 (p + S sw)%nat (if b then ALL1 else 0);
    do w2 <- wrd mem2 (p + ew)%nat;
    wwr mem2 (p + ew)%nat (if b then Z.lor w2 (low_mask eb) else Z.land w2 (cpl (low_mask eb))).

(** bits.h:106-123 *)
Inductive bitop := BAnd | BIor | BXor | BEqv | BNand | BNor | BAndc1 | BAndc2 | BIorc1 | BIorc2 | BXorc1 | BXorc2 | BSrc1 | BSrc2 | BNot1 | BNot2.
Definition word_op (op : bitop) (a b : Z) : Z :=
  match op with
  | BAnd => Z.land a b | BIor => Z.lor a b | BXor => Z.lxor a b
  | BNand => cpl (Z.land a b) | BNor => cpl (Z.lor a b) | BEqv => cpl (Z.lxor a b)
  | BAndc1 => Z.land (cpl a) b | BAndc2 => Z.land a (cpl b)
  | BIorc1 => Z.lor (cpl a) b | BIorc2 => Z.lor a (cpl b)
  | BXorc1 => Z.lxor (cpl a) b | BXorc2 => Z.lxor a (cpl b)
  | BSrc1 => a | BSrc2 => b | BNot1 => cpl a | BNot2 => cpl b
  end.
Definition uses1 (op : bitop) : bool := match op with BSrc2 | BNot2 => false | _ => true end.
Definition uses2 (op : bitop) : bool := match op with BSrc1 | BNot1 => false | _ => true end.
(** src/bits.c:101-137  Scm_BitsOperate; an operand the operation does not use is not read *)
Fixpoint operate_loop (n : nat) (mem : list Z) (r : nat) (op : bitop) (a b : nat) (sw sb ew eb w : nat) : res (list Z) :=
  match n with
  | O => Ok mem
  | S m =>
    do x <- (if uses1 op then wrd mem (a + w)%nat else Ok 0);
    do y <- (if uses2 op then wrd mem (b + w)%nat else Ok 0);
    let z := word_op op x y in
    let z := if ((w =? sw) && negb (sb =? 0))%nat then Z.land z (cpl (low_mask sb))
             else if (w =? ew)%nat then Z.land z (low_mask eb) else z in
    do mem1 <- wwr mem (r + w)%nat z;
    operate_loop m mem1 r op a b sw sb ew eb (S w)
  end.
Definition bits_operate (mem : list Z) (r : nat) (op : bitop) (a b s e : nat) : res (list Z) :=
  let sw := (s / 64)%nat in let sb := (s mod 64)%nat in let ew := (e / 64)%nat in let eb := (e mod 64)%nat in
  operate_loop (ew + (if (eb =? 0)%nat then 0 else 1) - sw) mem r op a b sw sb ew eb sw.

(** src/bits.c:143-163 and 166-186: Scm_BitsEqual / Scm_BitsIncludes differ in the
    difference they compute from two words *)
Definition diff_equal (a b : Z) : Z := Z.lxor a b.
Definition diff_includes (a b : Z) : Z := Z.lxor a (Z.lor a b).
Fixpoint cmp_words (diff : Z -> Z -> Z) (n : nat) (mem : list Z) (a b : nat) : res bool :=
  match n with
  | O => Ok true
  | S m => do x <- wrd mem a; do y <- wrd mem b;
           if negb (diff x y =? 0) then Ok false else cmp_words diff m mem (S a) (S b)
  end.
Definition bits_cmp (diff : Z -> Z -> Z) (mem : list Z) (a b s e : nat) : res bool :=
  let sw := (s / 64)%nat in let sb := (s mod 64)%nat in let ew := (e / 64)%nat in let eb := (e mod 64)%nat in
  do r1 <- (if (sb =? 0)%nat then Ok true else
            do x <- wrd mem (a + sw)%nat; do y <- wrd mem (b + sw)%nat;
            Ok (Z.land (diff x y) (cpl (low_mask sb)) =? 0));
  if negb r1 then Ok false else
  let sw := if (sb =? 0)%nat then sw else S sw in
  do r2 <- (if (eb =? 0)%nat then Ok true else
            do x <- wrd mem (a + ew)%nat; do y <- wrd mem (b + ew)%nat;
            Ok (Z.land (diff x y) (low_mask eb) =? 0));
  if negb r2 then Ok false else cmp_words diff (ew - sw) mem (a + sw)%nat (b + sw)%nat.
Definition bits_equal := bits_cmp diff_equal.
Definition bits_includes := bits_cmp diff_includes.

(** src/bits.c:192-224: Scm_BitsAny looks at bits[w], Scm_BitsEvery at ~bits[w]; [neg]
    says which, and the word is passed through [view] *)
Definition view (neg : bool) (w : Z) : Z := if neg then cpl w else w.
Fixpoint any_words (neg : bool) (n : nat) (mem : list Z) (w : nat) : res bool :=
  match n with
  | O => Ok false
  | S m => do x <- wrd mem w; if negb (view neg x =? 0) then Ok true else any_words neg m mem (S w)
  end.
Definition bits_some (neg : bool) (mem : list Z) (p start end_ : nat) : res bool :=
  let sw := (start / 64)%nat in let ew := ((end_ - 1) / 64)%nat in
  let sb := (start mod 64)%nat in let eb := (end_ mod 64)%nat in
  if (start =? end_)%nat then Ok false
  else if (sw =? ew)%nat then do x <- wrd mem (p + sw)%nat; Ok (negb (Z.land (view neg x) (bits_mask sb eb) =? 0))
  else do x <- wrd mem (p + sw)%nat;
       if negb (Z.land (view neg x) (bits_mask sb 0) =? 0) then Ok true
       else do r <- any_words neg (ew - S sw) mem (p + S sw)%nat;
            if r : bool then Ok true
            else do y <- wrd mem (p + ew)%nat; Ok (negb (Z.land (view neg y) (bits_mask 0 eb) =? 0)).
Definition bits_any := bits_some false.
Definition bits_every (mem : list Z) (p start end_ : nat) : res bool := do r <- bits_some true mem p start end_; Ok (negb r).

(** src/gauche/bits_inline.h:53-68  Scm__CountBitsInWord *)
Definition M1 := 0x5555555555555555. Definition M2 := 0x3333333333333333. Definition M4 := 0x0f0f0f0f0f0f0f0f.
Definition count_bits (w : Z) : Z :=
  let w := Z.land w M1 + Z.land (Z.shiftr w 1) M1 in
  let w := Z.land w M2 + Z.land (Z.shiftr w 2) M2 in
  let w := Z.land w M4 + Z.land (Z.shiftr w 4) M4 in
  let w := (w * 0x0101010101010101) mod 2 ^ 64 in
  Z.shiftr w 56.
(** src/bits.c:234-263  Scm_BitsCount1 / Scm_BitsCount0; u_long sum returned as int *)
Fixpoint count_words (neg : bool) (n : nat) (mem : list Z) (w : nat) (num : Z) : res Z :=
  match n with
  | O => Ok num
  | S m => do x <- wrd mem w; count_words neg m mem (S w) ((num + count_bits (view neg x)) mod 2 ^ 64)
  end.
Definition to_int (z : Z) : Z := (z + 2 ^ 31) mod 2 ^ 32 - 2 ^ 31.
Definition bits_count (neg : bool) (mem : list Z) (p start end_ : nat) : res Z :=
  let sw := (start / 64)%nat in let ew := ((end_ - 1) / 64)%nat in
  let sb := (start mod 64)%nat in let eb := (end_ mod 64)%nat in
  if (start =? end_)%nat then Ok 0
  else if (sw =? ew)%nat then do x <- wrd mem (p + sw)%nat; Ok (to_int (count_bits (Z.land (view neg x) (bits_mask sb eb))))
  else do x <- wrd mem (p + sw)%nat;
       do num <- count_words neg (ew - S sw) mem (p + S sw)%nat (count_bits (Z.land (view neg x) (bits_mask sb 0)));
       do y <- wrd mem (p + ew)%nat;
       Ok (to_int ((num + count_bits (Z.land (view neg y) (bits_mask 0 eb))) mod 2 ^ 64)).
Definition bits_count1 := bits_count false.
Definition bits_count0 := bits_count true.

(** src/gauche/bits_inline.h:80-102  Scm__LowestBitNumber *)
Definition H32 := 0xffffffff00000000. Definition H16 := 0xffff0000ffff0000. Definition H8 := 0xff00ff00ff00ff00.
Definition H4 := 0xf0f0f0f0f0f0f0f0. Definition H2 := 0xcccccccccccccccc. Definition H1 := 0xaaaaaaaaaaaaaaaa.
Definition lowest (word : Z) : nat :=
  let word := Z.lxor word (Z.land word (word - 1)) in
  let add m k := if Z.land word m =? 0 then 0%nat else k in
  (add H32 32 + add H16 16 + add H8 8 + add H4 4 + add H2 2 + add H1 1)%nat.
(** src/gauche/bits_inline.h:106-127  Scm__HighestBitNumber *)
Definition hi_step (m : Z) (k : nat) (s : nat * Z) : nat * Z :=
  let z := Z.land (snd s) m in if z =? 0 then s else ((fst s + k)%nat, z).
Definition highest (word : Z) : nat :=
  let s := hi_step H2 2 (hi_step H4 4 (hi_step H8 8 (hi_step H16 16 (hi_step H32 32 (0%nat, word))))) in
  if Z.land (snd s) H1 =? 0 then fst s else S (fst s).
(** src/bits.c:274-321  Scm_BitsLowest1 / Scm_BitsLowest0; None is -1.  The result is an
    int: an index of 2^31 or more is not representable. *)
Fixpoint lowest_words (neg : bool) (n : nat) (mem : list Z) (p w : nat) : res (option nat) :=
  match n with
  | O => Ok None
  | S m => do x <- wrd mem (p + w)%nat;
           if negb (view neg x =? 0) then Ok (Some (lowest (view neg x) + w * 64)%nat) else lowest_words neg m mem p (S w)
  end.
Definition bits_lowest (neg : bool) (mem : list Z) (p start end_ : nat) : res (option nat) :=
  let sw := (start / 64)%nat in let ew := ((end_ - 1) / 64)%nat in
  let sb := (start mod 64)%nat in let eb := (end_ mod 64)%nat in
  if (start =? end_)%nat then Ok None
  else if (ew =? sw)%nat then
    do x <- wrd mem (p + sw)%nat;
    let w := Z.land (view neg x) (bits_mask sb eb) in
    Ok (if negb (w =? 0) then Some (lowest w + sw * 64)%nat else None)
  else
    do x <- wrd mem (p + sw)%nat;
    let w := Z.land (view neg x) (bits_mask sb 0) in
    if negb (w =? 0) then Ok (Some (lowest w + sw * 64)%nat)
    else do r <- lowest_words neg (ew - sw) mem p sw;
         match r with
         | Some k => Ok (Some k)
         | None =>
           do y <- wrd mem (p + ew)%nat;
           let w := Z.land (view neg y) (bits_mask 0 eb) in
           Ok (if negb (w =? 0) then Some (lowest w + ew * 64)%nat else None)
         end.
(** src/bits.c:325-372  Scm_BitsHighest1 / Scm_BitsHighest0.  [highest_words n .. w]: the n
    words downwards from w *)
Fixpoint highest_words (neg : bool) (n : nat) (mem : list Z) (p w : nat) : res (option nat) :=
  match n with
  | O => Ok None
  | S m => do x <- wrd mem (p + w)%nat;
           if negb (view neg x =? 0) then Ok (Some (highest (view neg x) + w * 64)%nat) else highest_words neg m mem p (w - 1)
  end.
Definition bits_highest (neg : bool) (mem : list Z) (p start end_ : nat) : res (option nat) :=
  let sw := (start / 64)%nat in let ew := ((end_ - 1) / 64)%nat in
  let sb := (start mod 64)%nat in let eb := (end_ mod 64)%nat in
  if (start =? end_)%nat then Ok None
  else if (ew =? sw)%nat then
    do x <- wrd mem (p + sw)%nat;
    let w := Z.land (view neg x) (bits_mask sb eb) in
    Ok (if negb (w =? 0) then Some (highest w + sw * 64)%nat else None)
  else
    do x <- wrd mem (p + ew)%nat;
    let w := Z.land (view neg x) (bits_mask 0 eb) in
    if negb (w =? 0) then Ok (Some (highest w + ew * 64)%nat)
    else do r <- highest_words neg (ew - 1 - sw) mem p (ew - 1);
         match r with
         | Some k => Ok (Some k)
         | None =>
           do y <- wrd mem (p + sw)%nat;
           let w := Z.land (view neg y) (bits_mask sb 0) in
           Ok (if negb (w =? 0) then Some (highest w + sw * 64)%nat else None)
         end.

(** src/vector.c:940-957  Scm_MakeBitvector: the new array is alone in its memory *)
Definition num_words (n : nat) : nat := ((n + 64 - 1) / 64)%nat.
Definition make_bitvector (size : nat) (fill : bool) : res (list Z) := bits_fill (repeat 0 (num_words size)) 0 0 size fill.
(** src/vector.c:1021-1035  Scm_BitvectorCopyX, [dp]/[sp] the arrays of dest and src *)
Definition bitvector_copyx (mem : list Z) (dp dsize dstart sp ssize sstart send : nat) : res (list Z) :=
  if (ssize <? sstart)%nat || (ssize <? send)%nat || (send <? sstart)%nat then Err
  else if (dsize <? dstart)%nat || (dsize <? dstart + send - sstart)%nat then Err
  else bits_copyx mem dp dstart sp sstart send.
