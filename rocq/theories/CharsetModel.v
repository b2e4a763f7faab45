(** Character sets: src/char.c:474-1050, src/gauche/charset.h:57-90.  [wds] are the three
    64-bit words small[0], small[1] and the word holding [flags] (bit 0 LARGE, bit 1
    IMMUTABLE; u_int plus padding).  [lrg] is the union [large]: the tree of a mutable set,
    or the flat vector of an immutable one (ivec, used when size = 2, is not distinguished
    from vec).  The tree is the red-black tree of TreeModel, keys and values being the ends
    of the ranges; an entry that has just been created has value 0. *)
From Coq Require Import ZArith List Bool Arith.
From Verif Require Import Outcome BitsModel TreeModel.
Import ListNotations.
Local Open Scope Z_scope.

Inductive large := LTree (t : core Z Z) | LFrozen (vec : list Z).
Record charset := mkcs { wds : list Z; lrg : large }.

(** src/gauche/charset.h:57, gauche.h:398 *)
Definition SMALL_CHARS : nat := 128.
Definition CHAR_MAX : Z := 0x10ffff.
(** src/gauche/charset.h:83-86 *)
Definition flags (cs : charset) : Z := nth 2 (wds cs) 0.
Definition large_p (cs : charset) : bool := Z.testbit (flags cs) 0.
Definition immutable_p (cs : charset) : bool := Z.testbit (flags cs) 1.
Definition set_flags (cs : charset) (f : Z) : charset := mkcs (firstn 2 (wds cs) ++ [f]) (lrg cs).
(** src/char.c:491-498  set_large *)
Definition set_large (cs : charset) (b : bool) : charset :=
  set_flags cs (if b then Z.lor (flags cs) 1 else Z.land (flags cs) (cpl 1)).
Definition set_immutable (cs : charset) : charset := set_flags cs (Z.lor (flags cs) 2).
Definition set_lrg (cs : charset) (l : large) : charset := mkcs (wds cs) l.
Definition set_wds (cs : charset) (w : list Z) : charset := mkcs w (lrg cs).
(** the member of the union; reading the vector of a set that was frozen in place without
    having a vector reads size out of the tree's root pointer (0 if the tree is empty) *)
Definition tree_of (cs : charset) : res (core Z Z) := match lrg cs with LTree t => Ok t | LFrozen _ => UB end.
Definition vec_of (cs : charset) : res (list Z) :=
  match lrg cs with LFrozen v => Ok v | LTree t => match root t with E => Ok [] | _ => UB end end.

(** src/char.c:628-633  cmp *)
Definition ccmp (a b : Z) : Z := if b <? a then 1 else if a <? b then -1 else 0.
Definition e_key (e : entry Z Z) : Z := snd (fst e).
Definition e_val (e : entry Z Z) : Z := match snd e with Some v => v | None => 0 end.
(** e->value = v *)
Definition store (t : core Z Z) (e : entry Z Z) (v : Z) : core Z Z :=
  mkcore (set_node_value (root t) (entry_id e) v) (num_entries t) (fresh t).
(** src/treemap.c:148-153  Scm_TreeCoreNextEntry *)
Definition next_entry (t : core Z Z) (key : Z) : option (entry Z Z) := snd (core_near ccmp t key).

(** src/char.c:635-643  make_charset *)
Definition make_charset : res charset :=
  do w <- bits_fill [0; 0; 0] 0 0 SMALL_CHARS false;
  Ok (set_flags (mkcs w (LTree core_init)) 0).

(** src/char.c:578-625  cs_iter_init / cs_iter_next, drained: the ranges in order.  None of
    the loops that use it change the set. *)
Fixpoint pairs (v : list Z) : res (list (Z * Z)) :=
  match v with
  | [] => Ok []
  | a :: b :: r => do l <- pairs r; Ok ((a, b) :: l)
  | [_] => UB
  end.
Definition tree_ranges (t : core Z Z) : res (list (Z * Z)) :=
  match iter_drain (S (Z.to_nat (num_entries t))) false t (mkiter None (bound_id t true) (bound_id t false)) with
  | Some l => Ok (map (fun e => (e_key e, e_val e)) l)
  | None => UB
  end.
Definition iter_ranges (cs : charset) : res (list (Z * Z)) :=
  if negb (large_p cs) then Ok []
  else if immutable_p cs then do v <- vec_of cs; pairs v
  else do t <- tree_of cs; tree_ranges t.

(** src/char.c:850-899  Scm_CharSetAddRange.  [absorb]: the loop that removes the entries
    the new range reaches *)
Fixpoint absorb (fuel : nat) (t : core Z Z) (e : entry Z Z) (hi : Z) (to : Z) : res (core Z Z) :=
  match fuel with
  | O => UB
  | S f =>
    match next_entry t hi with
    | None => Ok (store t e to)
    | Some h =>
      if to + 1 <? e_key h then Ok (store t e to)
      else do d <- core_delete ccmp t (e_key h);
           if to <? e_val h then Ok (store (fst d) e (e_val h))
           else absorb f (fst d) e (e_key h) to
    end
  end.
Definition add_large (t : core Z Z) (from to : Z) : res (core Z Z) :=
  let '(e, lo, hi) := core_near ccmp t from in
  do te <- match e with
           | Some e => Ok (t, e)
           | None => match lo with
                     | Some l => if e_val l <? from - 1 then core_create ccmp t from else Ok (t, l)
                     | None => core_create ccmp t from
                     end
           end;
  if to <=? e_val (snd te) then Ok (fst te)
  else absorb (S (Z.to_nat (num_entries (fst te)))) (fst te) (snd te) (e_key (snd te)) to.
Definition add_range (cs : charset) (from to : Z) : res charset :=
  if immutable_p cs then Err
  else if to <? from then Ok cs
  else if from <? 128 then
    if to <? 128 then do w <- bits_fill (wds cs) 0 (Z.to_nat from) (Z.to_nat to + 1) true; Ok (set_wds cs w)
    else do w <- bits_fill (wds cs) 0 (Z.to_nat from) SMALL_CHARS true;
         let cs := set_large (set_wds cs w) true in
         do t <- tree_of cs; do t' <- add_large t 128 to; Ok (set_lrg cs (LTree t'))
  else let cs := set_large cs true in
       do t <- tree_of cs; do t' <- add_large t from to; Ok (set_lrg cs (LTree t')).

(** src/char.c:901-934  Scm_CharSetAdd.  [same]: dst == src.  The two sets' words are
    put in one memory for Scm_BitsOperate. *)
Fixpoint add_ranges (cs : charset) (l : list (Z * Z)) : res charset :=
  match l with [] => Ok cs | (a, b) :: r => do c <- add_range cs a b; add_ranges c r end.
Definition char_set_add (same : bool) (dst src : charset) : res charset :=
  if immutable_p dst then Err
  else if same then Ok dst
  else
    let dst := if large_p src then set_large dst true else dst in
    do w <- bits_operate (wds dst ++ wds src) 0 BIor 0 3 0 SMALL_CHARS;
    let dst := set_wds dst (firstn 3 w) in
    do l <- (if immutable_p src then do v <- vec_of src; pairs v else do t <- tree_of src; tree_ranges t);
    add_ranges dst l.

(** src/char.c:936-970  Scm_CharSetComplement *)
Definition put_entry (t : core Z Z) (key v : Z) : res (core Z Z) :=
  do ce <- core_create ccmp t key; Ok (store (fst ce) (snd ce) v).
Fixpoint complement_loop (fuel : nat) (t : core Z Z) (last : Z) (largep : bool) : res (core Z Z * Z * bool) :=
  match fuel with
  | O => UB
  | S f =>
    match next_entry t last with
    | None => Ok (t, last, largep)
    | Some e =>
      do d <- core_delete ccmp t (e_key e);
      if last <? e_key e - 1
      then do t' <- put_entry (fst d) (last + 1) (e_key e - 1); complement_loop f t' (e_val e) true
      else complement_loop f (fst d) (e_val e) largep
    end
  end.
Definition complement_large (t : core Z Z) : res (core Z Z * bool) :=
  do r <- complement_loop (S (Z.to_nat (num_entries t))) t 127 false;
  let '(t, last, largep) := r in
  if last <? CHAR_MAX then do t' <- put_entry t (last + 1) CHAR_MAX; Ok (t', true) else Ok (t, largep).
Definition complement (cs : charset) : res charset :=
  if immutable_p cs then Err
  else do w <- bits_operate (wds cs) 0 BNot1 0 0 0 SMALL_CHARS;
       do t <- tree_of cs;
       do r <- complement_large t;
       Ok (set_large (mkcs w (LTree (fst r))) (snd r)).

(** src/libvec.scm:784-806  %binary-search, esize = 2.  Result: Some k (found), or the value
    stored through [floor], None being (size_t)-1. *)
Inductive bsr := Found (k : nat) | NotFound (floor : option nat).
Fixpoint bsearch_loop (fuel : nat) (vec : list Z) (key : Z) (lo hi k : nat) : res bsr :=
  match fuel with
  | O => UB
  | S f =>
    if (lo <? hi)%nat then
      do v <- of_opt (nth_error vec (k * 2));
      if v =? key then Ok (Found (k * 2))
      else if v <? key then
        let lo := k in let k := (lo + (hi - lo) / 2)%nat in
        if (lo =? k)%nat then Ok (NotFound (if (lo =? hi)%nat then None else Some (lo * 2)%nat))
        else bsearch_loop f vec key lo hi k
      else
        let hi := k in let k := (lo + (hi - lo) / 2)%nat in bsearch_loop f vec key lo hi k
    else Ok (NotFound (if (lo =? hi)%nat then None else Some (lo * 2)%nat))
  end.
Definition bsearch (vec : list Z) (key : Z) : res bsr :=
  let nume := (length vec / 2)%nat in bsearch_loop (S (S nume)) vec key 0 nume (nume / 2)%nat.

(** src/char.c:998-1030  Scm_CharSetContains *)
Definition contains (cs : charset) (c : Z) : res bool :=
  if c <? 0 then Ok false
  else if c <? 128 then bits_test (wds cs) 0 (Z.to_nat c)
  else if immutable_p cs then
    do v <- vec_of cs;
    if (length v =? 2)%nat then do a <- of_opt (nth_error v 0); do b <- of_opt (nth_error v 1); Ok ((a <=? c) && (c <=? b))
    else do r <- bsearch v c;
         match r with
         | Found _ => Ok true
         | NotFound None => Ok false
         | NotFound (Some lo) => do h <- of_opt (nth_error v (lo + 1)); Ok (c <=? h)
         end
  else do t <- tree_of cs;
       let '(e, l, h) := core_near ccmp t c in
       Ok (match e with Some _ => true | None => match l with Some l => c <=? e_val l | None => false end end).

(** src/char.c:786-805  Scm_CharSetEq; the trees of two mutable sets are compared by
    Scm_TreeCoreEq *)
Fixpoint ranges_eq (a b : list (Z * Z)) : bool :=
  match a, b with
  | [], [] => true
  | (xl, xh) :: a, (yl, yh) :: b => if negb ((xl =? yl) && (xh =? yh)) then false else ranges_eq a b
  | _, _ => false
  end.
Definition optz_eqb (a b : option Z) : bool := (match a with Some v => v | None => 0 end) =? (match b with Some v => v | None => 0 end).
Definition char_set_eq (x y : charset) : res bool :=
  do b <- bits_equal (wds x ++ wds y) 0 3 0 SMALL_CHARS;
  if negb b then Ok false
  else if negb (immutable_p x) && negb (immutable_p y) then
    do tx <- tree_of x; do ty <- tree_of y;
    of_opt (core_eq Z.eqb optz_eqb (S (Z.to_nat (num_entries tx))) tx ty)
  else do lx <- iter_ranges x; do ly <- iter_ranges y; Ok (ranges_eq lx ly).

(** src/char.c:808-841  cs_contains_range *)
Definition contains_range (s : charset) (lo hi : Z) : res bool :=
  if negb (large_p s) then Ok false
  else if immutable_p s then
    do v <- vec_of s;
    do r <- bsearch v lo;
    match r with
    | Found ye => do h <- of_opt (nth_error v (ye + 1)); Ok (negb (h <? hi))
    | NotFound (Some yl) => do h <- of_opt (nth_error v (yl + 1)); Ok (negb (h <? hi))
    | NotFound None => Ok false
    end
  else do t <- tree_of s;
       let '(ye, yl, yh) := core_near ccmp t lo in
       Ok (match ye with
           | Some e => negb (e_val e <? hi)
           | None => match yl with Some e => negb (e_val e <? hi) | None => false end
           end).
(** src/char.c:844-857  Scm_CharSetLE *)
Fixpoint le_loop (y : charset) (l : list (Z * Z)) : res bool :=
  match l with
  | [] => Ok true
  | (lo, hi) :: r => do b <- contains_range y lo hi; if negb b then Ok false else le_loop y r
  end.
Definition char_set_le (x y : charset) : res bool :=
  do b <- bits_includes (wds y ++ wds x) 0 3 0 SMALL_CHARS;
  if negb b then Ok false else do l <- iter_ranges x; le_loop y l.

(** src/char.c:672-692  Scm_CharSetCopy *)
Fixpoint copy_vec (t : core Z Z) (l : list (Z * Z)) : res (core Z Z) :=
  match l with [] => Ok t | (a, b) :: r => do t' <- put_entry t a b; copy_vec t' r end.
Definition copy_small (dst src : charset) : res charset :=
  do w <- bits_copyx (wds dst ++ wds src) 0 0 3 0 SMALL_CHARS; Ok (set_wds dst (firstn 3 w)).
Definition char_set_copy (src : charset) : res charset :=
  do d0 <- make_charset;
  do d1 <- copy_small d0 src;
  let d2 := set_large d1 (large_p src) in
  if immutable_p src then
    do v <- vec_of src; do l <- pairs v; do t <- tree_of d2; do t' <- copy_vec t l; Ok (set_lrg d2 (LTree t'))
  else do t <- tree_of src; Ok (set_lrg d2 (LTree (core_copy t))).

(** src/char.c:697-715  char_set_freeze_vec: the vector has twice as many elements as the
    tree has entries, the ranges are stored into it in order *)
Fixpoint flatten (l : list (Z * Z)) : list Z := match l with [] => [] | (a, b) :: r => a :: b :: flatten r end.
Definition freeze_vec (src : charset) : res (list Z) :=
  if immutable_p src then Panic
  else do t <- tree_of src;
       do l <- iter_ranges src;
       if (2 * Z.of_nat (length l) =? 2 * num_entries t) then Ok (flatten l) else UB.
(** src/char.c:717-735  Scm_CharSetFreeze; an immutable set is returned as it is *)
Definition char_set_freeze (src : charset) : res charset :=
  if immutable_p src then Ok src
  else do d0 <- make_charset;
       do d1 <- copy_small d0 src;
       let d2 := set_immutable d1 in
       if large_p src then do v <- freeze_vec src; Ok (set_lrg (set_large d2 true) (LFrozen v))
       else Ok (set_lrg d2 (LFrozen [])).
(** src/char.c:737-757  Scm_CharSetFreezeX *)
Definition char_set_freezex (src : charset) : res charset :=
  if immutable_p src then Ok src
  else if large_p src then do v <- freeze_vec src; Ok (set_immutable (set_lrg src (LFrozen v)))
  else Ok (set_immutable src).

(** src/char.c:1036-1064  Scm_CharSetRanges *)
Fixpoint small_ranges (n : nat) (ind : nat) (w : list Z) (begin : nat) (prev : bool) : res (list (Z * Z)) :=
  match n with
  | O => Ok (if prev then [(Z.of_nat begin, Z.of_nat ind - 1)] else [])
  | S m =>
    do b <- bits_test w 0 ind;
    let begin' := if negb prev && b then ind else begin in
    do r <- small_ranges m (S ind) w begin' b;
    Ok (if prev && negb b then (Z.of_nat begin', Z.of_nat ind - 1) :: r else r)
  end.
Definition char_set_ranges (cs : charset) : res (list (Z * Z)) :=
  do a <- small_ranges SMALL_CHARS 0 (wds cs) 0 false;
  do b <- iter_ranges cs;
  Ok (a ++ b).
(** src/libchar.scm:227-230  char-set-size *)
Definition char_set_size (cs : charset) : res Z :=
  do l <- char_set_ranges cs; Ok (fold_left (fun s r => s + (snd r - fst r + 1)) l 0).
(** src/libchar.scm:261-273  %char-set-add-range!, on integers *)
Definition add_range_checked (cs : charset) (from to : Z) : res charset :=
  if (from <? 0) || (CHAR_MAX <? from) || (to <? 0) || (CHAR_MAX <? to) then Err else add_range cs from to.

(** A program: any sequence of these on char-sets it has created; sets are named by
    their number in order of creation.  An error leaves everything unchanged. *)
Inductive csop :=
| New
| AddRange (i : nat) (from to : Z)
| Union (i j : nat)                 (* (%char-set-add! i j) *)
| Complement (i : nat)              (* char-set-complement! *)
| Copy (i : nat) | Freeze (i : nat) (* create a new set *)
| FreezeX (i : nat)
| Contains (i : nat) (c : Z)
| Equal (i j : nat) | Subset (i j : nat)
| Ranges (i : nat).
Inductive csans := AUnit | AErr | ABool (b : bool) | ARanges (l : list (Z * Z)).
Definition replace (st : list charset) (i : nat) (c : charset) : list charset := firstn i st ++ c :: skipn (S i) st.
Definition update (st : list charset) (i : nat) (r : res charset) : res (list charset * csans) :=
  match r with Ok c => Ok (replace st i c, AUnit) | Err => Ok (st, AErr) | Panic => Panic | UB => UB end.
Definition create (st : list charset) (r : res charset) : res (list charset * csans) :=
  match r with Ok c => Ok (st ++ [c], AUnit) | Err => Ok (st, AErr) | Panic => Panic | UB => UB end.
Definition ask (st : list charset) {A} (f : A -> csans) (r : res A) : res (list charset * csans) :=
  match r with Ok b => Ok (st, f b) | Err => Ok (st, AErr) | Panic => Panic | UB => UB end.
Definition with1 (st : list charset) (i : nat) (k : charset -> res (list charset * csans)) : res (list charset * csans) :=
  match nth_error st i with Some c => k c | None => Ok (st, AErr) end.
Definition csstep (st : list charset) (o : csop) : res (list charset * csans) :=
  match o with
  | New => create st make_charset
  | AddRange i a b => with1 st i (fun c => update st i (add_range_checked c a b))
  | Union i j => with1 st i (fun c => with1 st j (fun d => update st i (char_set_add (i =? j)%nat c d)))
  | Complement i => with1 st i (fun c => update st i (complement c))
  | Copy i => with1 st i (fun c => create st (char_set_copy c))
  | Freeze i => with1 st i (fun c => create st (char_set_freeze c))
  | FreezeX i => with1 st i (fun c => update st i (char_set_freezex c))
  | Contains i ch => with1 st i (fun c => ask st ABool (contains c ch))
  | Equal i j => with1 st i (fun c => with1 st j (fun d => ask st ABool (char_set_eq c d)))
  | Subset i j => with1 st i (fun c => with1 st j (fun d => ask st ABool (char_set_le c d)))
  | Ranges i => with1 st i (fun c => ask st ARanges (char_set_ranges c))
  end.
Fixpoint csrun (st : list charset) (ops : list csop) : res (list charset * list csans) :=
  match ops with
  | [] => Ok (st, [])
  | o :: r => do a <- csstep st o; do b <- csrun (fst a) r; Ok (fst b, snd a :: snd b)
  end.
