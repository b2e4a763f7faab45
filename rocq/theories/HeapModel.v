(** lib/data/heap.scm: min-max binary heaps.

    The backing storage is a partial function from 1-based indices ([Ix] removed) to
    elements with an optional length limit: a vector of length n has limit [Some n] and all
    cells below it set, a sparse vector has no limit and reading an unset cell is an
    error.  [lt] is the cached less-than procedure, and greater-than its converse
    (%derive-comparer, with or without key).  [filler] is *filler*.  Type checks of
    arguments (comparator-check-type) are not modelled. *)
From Coq Require Import List Bool Arith.
From Verif Require Import Outcome.
Import ListNotations.

Section Heap.
Context {A : Type} (lt : A -> A -> bool) (filler : A).
Definition gt (a b : A) : bool := lt b a.

Record store := mk_store { cells : nat -> option A; limit : option nat }.
Definition in_limit (s : store) (i : nat) : bool := (1 <=? i) && match limit s with Some n => i <=? n | None => true end.
(** (~ storage (Ix i)) *)
Definition sget (s : store) (i : nat) : res A :=
  if in_limit s i then match cells s i with Some v => Ok v | None => Err end else Err.
(** (set! (~ storage (Ix i)) v) *)
Definition sset (s : store) (i : nat) (v : A) : res store :=
  if in_limit s i then Ok (mk_store (fun j => if j =? i then Some v else cells s j) (limit s)) else Err.
(** lib/data/heap.scm:85-90  swap! *)
Definition swap (s : store) (i j : nat) : res store :=
  do v <- sget s i; do w <- sget s j; do s1 <- sset s i w; sset s1 j v.

(** the capacity slot; [Unbound] if it was never initialised *)
Inductive capacity := Finite (n : nat) | Infinite | Unbound.
(** lib/data/heap.scm:97-106  <binary-heap> *)
Record heap := mk_heap { cap : capacity; storage : store; next_leaf : nat }.

Definition cap_of (s : store) : capacity := match limit s with Some n => Finite n | None => Infinite end.
(** lib/data/heap.scm:108-128  make-binary-heap *)
Definition make_heap (s : store) : heap := mk_heap (cap_of s) s 1.

(** integer-length *)
Definition integer_length (i : nat) : nat := if i =? 0 then 0 else Nat.log2 i + 1.
(** lib/data/heap.scm:328  min-node? *)
Definition min_node (i : nat) : bool := Nat.odd (integer_length i).

(** lib/data/heap.scm:363-369  bubble-up-rec *)
Fixpoint bubble_up_rec (fuel : nat) (rel : A -> A -> bool) (s : store) (index : nat) : res store :=
  match fuel with
  | O => UB
  | S n =>
    if 3 <? index then
      let g := index / 4 in
      do a <- sget s g; do b <- sget s index;
      if rel a b then Ok s else do s1 <- swap s g index; bubble_up_rec n rel s1 g
    else Ok s
  end.
(** lib/data/heap.scm:361-382  bh-bubble-up *)
Definition bubble_up (s : store) (index : nat) : res store :=
  let p := index / 2 in
  do a <- sget s p; do b <- sget s index;
  if min_node p then
    if lt a b then bubble_up_rec index gt s index
    else do s1 <- swap s p index; bubble_up_rec index lt s1 p
  else
    if gt a b then bubble_up_rec index lt s index
    else do s1 <- swap s p index; bubble_up_rec index gt s1 p.

(** lib/data/heap.scm:384-391  bh-heapify!: [n] iterations from [i]; the hole check of sparse
    vectors is the failing read in bubble_up *)
Fixpoint heapify_loop (n i : nat) (s : store) : res store :=
  match n with O => Ok s | S m => do s1 <- bubble_up s i; heapify_loop m (S i) s1 end.
Definition heapify (s : store) (size : nat) : res store := heapify_loop (size - 1) 2 s.

(** lib/data/heap.scm:399-402  descendant *)
Definition descendant (n index : nat) : nat := if n <? 2 then 2 * index + n else 4 * index + (n - 2).
(** lib/data/heap.scm:409-422  find-extreme; [k] is the number of candidates left, n = 6 - k *)
Fixpoint find_extreme_loop (k : nat) (rel : A -> A -> bool) (s : store) (index size : nat) (minval : A) (minidx : nat) : res nat :=
  match k with
  | O => Ok minidx
  | S k' =>
    let i := descendant (6 - k) index in
    if i <? size then
      do v <- sget s i;
      if rel v minval then find_extreme_loop k' rel s index size v i
      else find_extreme_loop k' rel s index size minval minidx
    else Ok minidx
  end.
Definition find_extreme (rel : A -> A -> bool) (s : store) (index size : nat) : res nat :=
  do v <- sget s index; find_extreme_loop 6 rel s index size v index.
(** lib/data/heap.scm:424-431  trickle-down-rec *)
Fixpoint trickle_rec (fuel : nat) (rel : A -> A -> bool) (s : store) (index size : nat) : res store :=
  match fuel with
  | O => UB
  | S n =>
    do pick <- find_extreme rel s index size;
    if pick =? index then Ok s
    else
      do s1 <- swap s pick index;
      if 4 * index <=? pick then
        do a <- sget s1 pick; do b <- sget s1 (pick / 2);
        do s2 <- (if rel a b then Ok s1 else swap s1 (pick / 2) pick);
        trickle_rec n rel s2 pick size
      else Ok s1
  end.
(** lib/data/heap.scm:393-433  bh-trickle-down *)
Definition trickle_down (s : store) (index size : nat) : res store :=
  trickle_rec (S size) (if min_node index then lt else gt) s index size.

(** lib/data/heap.scm:131-162  build-binary-heap; [xlen] is the length of the vector or the
    number of entries of the sparse vector *)
Definition build_heap (s : store) (xlen : nat) (num_entries : option nat) : res heap :=
  let size := match num_entries with None => xlen | Some n => Nat.min n xlen end in
  do s1 <- heapify s size; Ok (mk_heap (cap_of s) s1 (size + 1)).

(** lib/data/heap.scm:179-192  binary-heap-copy: the keyword for the capacity is misspelt
    (:capaticy), so the slot stays unbound *)
Definition heap_copy (h : heap) : heap := mk_heap Unbound (storage h) (next_leaf h).
(** lib/data/heap.scm:198-203  binary-heap-clear!; the fill of the storage is left out *)
Definition heap_clear (h : heap) : heap := mk_heap (cap h) (storage h) 1.

(** lib/data/heap.scm:205-213  binary-heap-push! *)
Definition push (h : heap) (item : A) : res heap :=
  let next := next_leaf h in
  do full <- match cap h with Finite c => Ok (c <=? next - 1) | Infinite => Ok false | Unbound => Err end;
  if full : bool then Err
  else
    do s1 <- sset (storage h) next item;
    do s2 <- (if 1 <? next then bubble_up s1 next else Ok s1);
    Ok (mk_heap (cap h) s2 (next + 1)).
(** lib/data/heap.scm:215-217 *)
Definition num_entries (h : heap) : nat := next_leaf h - 1.
Definition is_empty (h : heap) : bool := next_leaf h =? 1.
(** lib/data/heap.scm:219-236  binary-heap-find-min, -max *)
Definition find_min (h : heap) (fallback : option A) : res A :=
  if next_leaf h =? 1 then match fallback with Some v => Ok v | None => Err end
  else sget (storage h) 1.
Definition find_max (h : heap) (fallback : option A) : res A :=
  match next_leaf h with
  | 1 => match fallback with Some v => Ok v | None => Err end
  | 2 => sget (storage h) 1
  | 3 => sget (storage h) 2
  | _ => do a <- sget (storage h) 2; do b <- sget (storage h) 3; Ok (if gt a b then a else b)
  end.
(** lib/data/heap.scm:238-246  binary-heap-pop-min! *)
Definition pop_min (h : heap) : res (A * heap) :=
  let nelts := num_entries h in
  if nelts =? 0 then Err
  else
    do r <- sget (storage h) 1;
    do l <- sget (storage h) nelts;
    do s1 <- sset (storage h) 1 l;
    do s2 <- sset s1 nelts filler;
    do s3 <- trickle_down s2 1 nelts;
    Ok (r, mk_heap (cap h) s3 nelts).
(** lib/data/heap.scm:248-266  binary-heap-pop-max! *)
Definition swap_and_adjust (h : heap) (nelts index : nat) : res heap :=
  do l <- sget (storage h) nelts;
  do s1 <- sset (storage h) index l;
  do s2 <- sset s1 nelts filler;
  do s3 <- trickle_down s2 index nelts;
  Ok (mk_heap (cap h) s3 nelts).
Definition pop_max (h : heap) : res (A * heap) :=
  let nelts := num_entries h in
  match nelts with
  | 0 => Err
  | 1 | 2 => do r <- sget (storage h) nelts; Ok (r, mk_heap (cap h) (storage h) nelts)
  | _ =>
    do a <- sget (storage h) 2; do b <- sget (storage h) 3;
    if gt a b then do h1 <- swap_and_adjust h nelts 2; Ok (a, h1)
    else do h1 <- swap_and_adjust h nelts 3; Ok (b, h1)
  end.
(** lib/data/heap.scm:271-279  binary-heap-swap-min! *)
Definition swap_min (h : heap) (item : A) : res (A * heap) :=
  if is_empty h then Err
  else
    do r <- sget (storage h) 1;
    do s1 <- sset (storage h) 1 item;
    let n := num_entries h in
    do s2 <- (if 1 <? n then trickle_down s1 1 (n + 1) else Ok s1);
    Ok (r, mk_heap (cap h) s2 (next_leaf h)).
(** lib/data/heap.scm:281-305  binary-heap-swap-max! *)
Definition store_and_adjust (h : heap) (item : A) (nelts index : nat) : res heap :=
  do a <- sget (storage h) 1;
  do s1 <- sset (storage h) index item;
  do s2 <- (if gt a item then swap s1 1 index else Ok s1);
  do s3 <- trickle_down s2 index (nelts + 1);
  Ok (mk_heap (cap h) s3 (next_leaf h)).
Definition swap_max (h : heap) (item : A) : res (A * heap) :=
  let nelts := num_entries h in
  match nelts with
  | 0 => Err
  | 1 => do r <- sget (storage h) 1; do s1 <- sset (storage h) 1 item; Ok (r, mk_heap (cap h) s1 (next_leaf h))
  | 2 => do r <- sget (storage h) 2;
         do a <- sget (storage h) 1;
         do s1 <- sset (storage h) 2 item;
         do s2 <- (if gt a item then swap s1 1 2 else Ok s1);
         Ok (r, mk_heap (cap h) s2 (next_leaf h))
  | _ =>
    do a <- sget (storage h) 2; do b <- sget (storage h) 3;
    if gt a b then do h1 <- store_and_adjust h item nelts 2; Ok (a, h1)
    else do h1 <- store_and_adjust h item nelts 3; Ok (b, h1)
  end.
(** lib/data/heap.scm:325-329  finish-up's filling loop: [k] cells from [i] *)
Fixpoint fill_loop (k i : nat) (s : store) : res store :=
  match k with O => Ok s | S m => do s1 <- sset s i filler; fill_loop m (S i) s1 end.
(** lib/data/heap.scm:322-346  binary-heap-remove! *)
Definition finish_up (h : heap) (s : store) (next : nat) : res heap :=
  if next =? next_leaf h then Ok (mk_heap (cap h) s (next_leaf h))
  else
    do s1 <- heapify s (next - 1);
    do s2 <- fill_loop (next_leaf h - next) next s1;
    Ok (mk_heap (cap h) s2 next).
Fixpoint remove_loop (fuel : nat) (pred : A -> bool) (h : heap) (s : store) (i next : nat) : res heap :=
  match fuel with
  | O => UB
  | S n =>
    if next <=? i then finish_up h s next
    else
      do v <- sget s i;
      if pred v then
        if i + 1 =? next then finish_up h s i
        else do s1 <- swap s i (next - 1); remove_loop n pred h s1 i (next - 1)
      else remove_loop n pred h s (i + 1) next
  end.
Definition remove (h : heap) (pred : A -> bool) : res heap :=
  remove_loop (S (next_leaf h)) pred h (storage h) 1 (next_leaf h).
(** lib/data/heap.scm:348-351  binary-heap-delete!; [same item e] is (=? cmp (key item) (key e)) *)
Definition delete (same : A -> A -> bool) (h : heap) (item : A) : res heap := remove h (same item).
(** lib/data/heap.scm:309-320  binary-heap-find *)
Fixpoint find_loop (n i : nat) (pred : A -> bool) (s : store) : res (option A) :=
  match n with
  | O => Ok None
  | S m => do v <- sget s i; if pred v then Ok (Some v) else find_loop m (S i) pred s
  end.
Definition heap_find (pred : A -> bool) (h : heap) : res (option A) := find_loop (num_entries h) 1 pred (storage h).

(** lib/data/heap.scm:330-352  binary-heap-check (one node): every kid and grandkid strictly after
    the node *)
Fixpoint check_nodes (n i : nat) (s : store) (next : nat) : res bool :=
  match n with
  | O => Ok true
  | S m =>
    let rel := if min_node i then lt else gt in
    let fix all (l : list nat) : res bool :=
      match l with
      | [] => Ok true
      | k :: r => if k <? next then do a <- sget s i; do b <- sget s k; if rel a b then all r else Ok false else Ok true
      end in
    do b1 <- all [2 * i; 2 * i + 1];
    do b2 <- all [4 * i; 4 * i + 1; 4 * i + 2; 4 * i + 3];
    do rest <- check_nodes m (S i) s next;
    Ok (b1 && b2 && rest)
  end.
Definition heap_check (h : heap) : res bool := check_nodes (num_entries h) 1 (storage h) (next_leaf h).
End Heap.
Arguments store : clear implicits.
Arguments heap : clear implicits.
