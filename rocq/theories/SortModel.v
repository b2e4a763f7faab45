(** Sorting: the hybrid quick/heap sort of src/compare.c and the merge sort of
    src/libcmp.scm.

    Arrays are lists with bounds-checked accesses (outside: [UB]); C ints are [Z], and
    the only arithmetic that can overflow before the bounds check (the doubling in
    [shift_up]) is checked against INT_MAX.  [cmp] is the comparison function, pure and
    without error (a comparison that raises leaves the array permuted only).  Lists live
    in the heap of ListModel.v. *)
From Coq Require Import List Bool ZArith.
From Verif Require Import Outcome ListModel.
Import ListNotations.
Local Open Scope Z_scope.

Notation "'do' ' p <- e ; f" := (bind e (fun x => let p := x in f))
  (at level 200, p strict pattern, e at level 100, f at level 200, right associativity).

Definition INT_MAX : Z := 2147483647.

Fixpoint upd {A} (n : nat) (x : A) (l : list A) : list A :=
  match l, n with
  | [], _ => []
  | _ :: r, O => x :: r
  | y :: r, S m => y :: upd m x r
  end.
Definition aget {A} (a : list A) (i : Z) : res A :=
  if i <? 0 then UB else of_opt (nth_error a (Z.to_nat i)).
Definition aset {A} (a : list A) (i : Z) (x : A) : res (list A) :=
  if (i <? 0) || (Z.of_nat (length a) <=? i) then UB else Ok (upd (Z.to_nat i) x a).
(** tmp = elts[i]; elts[i] = elts[j]; elts[j] = tmp *)
Definition aswap {A} (a : list A) (i j : Z) : res (list A) :=
  do tmp <- aget a i; do y <- aget a j; do a1 <- aset a i y; aset a1 j tmp.

Section Array.
Context {A : Type} (cmp : A -> A -> Z).

(** src/compare.c:268-288  shift_up; [base] is the offset of the pointer [elts] *)
Fixpoint shift_up_loop (fuel : nat) (a : list A) (base nelts l : Z) : res (list A) :=
  match fuel with
  | O => UB
  | S f =>
    if INT_MAX <? l * 2 then UB
    else if l * 2 <=? nelts then
      do maxchild <-
        (if l * 2 =? nelts then Ok (nelts - 1)
         else do x <- aget a (base + (l * 2 - 1)); do y <- aget a (base + l * 2);
              Ok (if cmp x y <? 0 then l * 2 else l * 2 - 1));
      do x <- aget a (base + (l - 1)); do y <- aget a (base + maxchild);
      if cmp x y <? 0 then
        do a1 <- aswap a (base + maxchild) (base + (l - 1));
        shift_up_loop f a1 base nelts (maxchild + 1)
      else Ok a
    else Ok a
  end.
Definition shift_up (a : list A) (base root nelts : Z) : res (list A) :=
  shift_up_loop (S (length a)) a base nelts (root + 1).

(** src/compare.c:290-302  sort_h: the two for loops, by the number of iterations left *)
Fixpoint sort_h_build (n : nat) (a : list A) (base nelts : Z) : res (list A) :=
  match n with
  | O => Ok a
  | S m => do a1 <- shift_up a base (Z.of_nat m) nelts; sort_h_build m a1 base nelts
  end.
Fixpoint sort_h_extract (n : nat) (a : list A) (base : Z) : res (list A) :=
  match n with
  | O => Ok a
  | S m =>
    let r := Z.of_nat n in
    do a1 <- aswap a (base + r) (base + 0);
    do a2 <- shift_up a1 base 0 r;
    sort_h_extract m a2 base
  end.
Definition sort_h (a : list A) (base nelts : Z) : res (list A) :=
  do a1 <- sort_h_build (Z.to_nat (nelts / 2)) a base nelts;
  sort_h_extract (Z.to_nat (nelts - 1)) a1 base.

(** src/compare.c:317-318  the two scanning loops *)
Fixpoint scan_up (fuel : nat) (a : list A) (pivot : A) (l r : Z) : res Z :=
  match fuel with
  | O => UB
  | S f => if l <=? r then do x <- aget a l; if cmp x pivot <? 0 then scan_up f a pivot (l + 1) r else Ok l
           else Ok l
  end.
Fixpoint scan_down (fuel : nat) (a : list A) (pivot : A) (l r : Z) : res Z :=
  match fuel with
  | O => UB
  | S f => if l <=? r then do x <- aget a r; if cmp pivot x <? 0 then scan_down f a pivot l (r - 1) else Ok r
           else Ok r
  end.
(** src/compare.c:316-323  the partitioning loop *)
Fixpoint partition_loop (fuel : nat) (a : list A) (pivot : A) (l r : Z) : res (list A * Z * Z) :=
  match fuel with
  | O => UB
  | S f =>
    if l <=? r then
      do l1 <- scan_up (S (length a)) a pivot l r;
      do r1 <- scan_down (S (length a)) a pivot l1 r;
      if r1 <? l1 then Ok (a, l1, r1)
      else do a1 <- aswap a l1 r1; partition_loop f a1 pivot (l1 + 1) (r1 - 1)
    else Ok (a, l, r)
  end.
(** src/compare.c:305-331  sort_q.  The outer while loop and the recursive call both
    increase [depth], so [limit - depth] bounds the nesting. *)
Fixpoint sort_q_rec (fuel : nat) (a : list A) (lo hi depth limit : Z) : res (list A) :=
  match fuel with
  | O => UB
  | S f =>
    if lo <? hi then
      if limit <=? depth then sort_h a lo (hi - lo + 1)
      else
        do pivot <- aget a lo;
        do ' (a1, l, r) <- partition_loop (S (length a)) a pivot lo hi;
        do a2 <- (if lo <? r then sort_q_rec f a1 lo r (depth + 1) limit else Ok a1);
        sort_q_rec f a2 l hi (depth + 1) limit
    else Ok a
  end.
Definition sort_q (a : list A) (lo hi depth limit : Z) : res (list A) :=
  sort_q_rec (S (Z.to_nat (limit - depth))) a lo hi depth limit.

(** src/compare.c:350-351  for (i=nelts,limit=1; i > 0; limit++) {i>>=1;} *)
Fixpoint limit_loop (fuel : nat) (i limit : Z) : Z :=
  match fuel with
  | O => limit
  | S f => if 0 <? i then limit_loop f (i / 2) (limit + 1) else limit
  end.
(** src/compare.c:346-357  Scm_SortArray *)
Definition sort_array (a : list A) : res (list A) :=
  let nelts := Z.of_nat (length a) in
  if nelts <=? 1 then Ok a
  else sort_q a 0 (nelts - 1) 0 (limit_loop 32 nelts 1).

(** src/libcmp.scm:515-522  %sort of a vector: sort a copy *)
Definition vector_sort (v : list A) : res (list A) := sort_array v.
End Array.

(** src/compare.c:333-340  cmp_scm: the answer of the Scheme procedure is #t, a fixnum, or
    something else *)
Inductive answer := ATrue | AFix (n : Z) | AOther.
Definition cmp_scm {A} (fn : A -> A -> answer) (x y : A) : Z :=
  match fn x y with
  | ATrue => -1
  | AFix n => if n <? 0 then -1 else 1
  | AOther => 1
  end.

(** car, cdr as Scheme procedures: an error on non-pairs *)
Definition scar (h : heap) (v : val) : res val := if pairp v then car h v else Err.
Definition scdr (h : heap) (v : val) : res val := if pairp v then cdr h v else Err.

(** src/list.c Scm_ListToArray(list, &nelts, store, TRUE) *)
Fixpoint list_to_array (fuel : nat) (h : heap) (l : val) : res (list val) :=
  match fuel with
  | O => UB
  | S f => if pairp l then do x <- car h l; do d <- cdr h l; do r <- list_to_array f h d; Ok (x :: r)
           else Ok []
  end.
(** src/compare.c:371-375  the loop storing the array into the cars *)
Fixpoint set_cars (h : heap) (cp : val) (xs : list val) : res heap :=
  match xs with
  | [] => Ok h
  | x :: r => do h1 <- set_car h cp x; do d <- cdr h1 cp; set_cars h1 d r
  end.
(** src/list.c Scm_ArrayToList *)
Fixpoint array_to_list (h : heap) (start last : val) (xs : list val) : res (heap * val) :=
  match xs with
  | [] => Ok (h, start)
  | x :: r => do ' (h1, s, l) <- append1 h start last x; array_to_list h1 s l r
  end.
(** src/compare.c:365-392  sort_list_int, Scm_SortList, Scm_SortListX, guarded by
    Scm_Length(seq) >= 0 in src/libcmp.scm:515-531 *)
Definition sort_list_int (cmp : val -> val -> Z) (h : heap) (objs : val) (destructive : bool) : res (heap * val) :=
  do n <- scm_length2 h false objs;
  if n <? 0 then Err
  else
    do arr <- list_to_array (S (length h)) h objs;
    do arr1 <- sort_array cmp arr;
    if destructive then do h1 <- set_cars h objs arr1; Ok (h1, objs)
    else array_to_list h Nil Nil arr1.

(** src/libcmp.scm:589-607  merge, on the sequences of elements *)
Fixpoint merge_loop {A K} (less : K -> K -> bool) (key : A -> K) (fuel : nat)
    (x : A) (kx : K) (a : list A) (y : A) (ky : K) (b : list A) : res (list A) :=
  match fuel with
  | O => UB
  | S f =>
    if less ky kx then
      match b with
      | [] => Ok (y :: x :: a)
      | y1 :: b1 => do r <- merge_loop less key f x kx a y1 (key y1) b1; Ok (y :: r)
      end
    else
      match a with
      | [] => Ok (x :: y :: b)
      | x1 :: a1 => do r <- merge_loop less key f x1 (key x1) a1 y ky b; Ok (x :: r)
      end
  end.
Definition merge {A K} (less : K -> K -> bool) (key : A -> K) (a b : list A) : res (list A) :=
  match a, b with
  | [], _ => Ok b
  | _, [] => Ok a
  | x :: a1, y :: b1 => merge_loop less key (length a + length b) x (key x) a1 y (key y) b1
  end.

Section Stable.
(** the predicate may look at the heap ([kless?] takes the cdr of its arguments) *)
Variable less : heap -> val -> val -> res bool.

(** src/libcmp.scm:615-627  the loop of merge! *)
Fixpoint mergex_loop (key : val -> val) (fuel : nat) (h : heap) (r a kx b ky : val) : res heap :=
  match fuel with
  | O => UB
  | S f =>
    do c <- less h ky kx;
    if (c : bool) then
      do h1 <- set_cdr h r b;
      do d <- scdr h1 b;
      if nullp d then set_cdr h1 b a
      else do y <- scar h1 d; mergex_loop key f h1 b a kx d (key y)
    else
      do h1 <- set_cdr h r a;
      do d <- scdr h1 a;
      if nullp d then set_cdr h1 a b
      else do x <- scar h1 d; mergex_loop key f h1 a d (key x) b ky
  end.
(** src/libcmp.scm:613-643  merge! *)
Definition mergex (key : val -> val) (h : heap) (a b : val) : res (heap * val) :=
  if nullp a then Ok (h, b)
  else if nullp b then Ok (h, a)
  else
    do x <- scar h a; do y <- scar h b;
    let kx := key x in let ky := key y in
    do c <- less h ky kx;
    if (c : bool) then
      do d <- scdr h b;
      do h1 <- (if nullp d then set_cdr h b a
                else do y1 <- scar h d; mergex_loop key (S (length h)) h b a kx d (key y1));
      Ok (h1, b)
    else
      do d <- scdr h a;
      do h1 <- (if nullp d then set_cdr h a b
                else do x1 <- scar h d; mergex_loop key (S (length h)) h a d (key x1) b ky);
      Ok (h1, a).

(** src/libcmp.scm:683-703  step; the captured variable [seq] is threaded.  The answer is
    (heap, seq, list). *)
Fixpoint sort_step (fuel : nat) (h : heap) (seq : val) (n : Z) : res (heap * val * val) :=
  match fuel with
  | O => UB
  | S f =>
    if 2 <? n then
      let j := n / 2 in
      do ' (h1, seq1, a) <- sort_step f h seq j;
      let k := n - j in
      do ' (h2, seq2, b) <- sort_step f h1 seq1 k;
      do ' (h3, p) <- mergex (fun v => v) h2 a b;
      Ok (h3, seq2, p)
    else if n =? 2 then
      do x <- scar h seq;
      do d <- scdr h seq; do y <- scar h d;
      let p := seq in
      do seq1 <- scdr h d;
      do c <- less h y x;
      do h1 <- (if (c : bool) then do h1 <- set_car h p y; do d1 <- scdr h1 p; set_car h1 d1 x else Ok h);
      do d2 <- scdr h1 p;
      do h2 <- set_cdr h1 d2 Nil;
      Ok (h2, seq1, p)
    else if n =? 1 then
      let p := seq in
      do seq1 <- scdr h seq;
      do h1 <- set_cdr h p Nil;
      Ok (h1, seq1, p)
    else Ok (h, seq, Nil)
  end.
(** src/libcmp.scm:704-705  the list branch of %stable-sort! when key is identity *)
Definition istable_sortx_id (h : heap) (seq : val) : res (heap * val) :=
  if nullp seq then Ok (h, seq)
  else if pairp seq then
    do n <- scm_length h seq;
    do ' (h1, _, p) <- sort_step (S (Z.to_nat n)) h seq n;
    Ok (h1, p)
  else Err.
(** src/libcmp.scm:706-712  the vector branch: vector->list, step, store back.
    [read_back] is the do loop with the vector-set! *)
Fixpoint read_back (fuel : nat) (h : heap) (p : val) (i : Z) (vec : list val) : res (list val) :=
  match fuel with
  | O => UB
  | S f => if nullp p then Ok vec
           else do x <- scar h p; do v1 <- aset vec i x; do d <- scdr h p; read_back f h d (i + 1) v1
  end.
Definition istable_sortx_vec (h : heap) (vec : list val) : res (heap * list val) :=
  let n := Z.of_nat (length vec) in
  do ' (h1, seq) <- array_to_list h Nil Nil vec;
  do ' (h2, _, p) <- sort_step (S (Z.to_nat n)) h1 seq n;
  do v <- read_back (S (length h2)) h2 p 0 vec;
  Ok (h2, v).
End Stable.

(** src/libcmp.scm:718  kless? *)
Definition kless (less : heap -> val -> val -> res bool) (h : heap) (a b : val) : res bool :=
  do x <- scdr h a; do y <- scdr h b; less h x y.
(** src/libcmp.scm:721-723  replace each element by (element . key) *)
Fixpoint add_keys (key : val -> val) (fuel : nat) (h : heap) (spine : val) : res heap :=
  match fuel with
  | O => UB
  | S f => if nullp spine then Ok h
           else do x <- scar h spine;
                let (h1, p) := cons_ h x (key x) in
                do h2 <- set_car h1 spine p;
                do d <- scdr h2 spine;
                add_keys key f h2 d
  end.
(** src/libcmp.scm:725-728  strip the keys *)
Fixpoint strip_keys (fuel : nat) (h : heap) (lis : val) : res heap :=
  match fuel with
  | O => UB
  | S f => if nullp lis then Ok h
           else do x <- scar h lis; do e <- scar h x;
                do h1 <- set_car h lis e;
                do d <- scdr h1 lis;
                strip_keys f h1 d
  end.
(** src/libcmp.scm:719-728  the list branch of %stable-sort! with a key procedure *)
Definition istable_sortx_key (less : heap -> val -> val -> res bool) (key : val -> val) (h : heap) (seq : val) : res (heap * val) :=
  if nullp seq then Ok (h, seq)
  else if pairp seq then
    do h1 <- add_keys key (S (length h)) h seq;
    do ' (h2, spine) <- istable_sortx_id (kless less) h1 seq;
    do h3 <- strip_keys (S (length h2)) h2 spine;
    Ok (h3, spine)
  else Err.
(** %stable-sort! on a list; [None] is the identity key *)
Definition istable_sortx (less : heap -> val -> val -> res bool) (key : option (val -> val)) (h : heap) (seq : val) : res (heap * val) :=
  match key with
  | None => istable_sortx_id less h seq
  | Some k => istable_sortx_key less k h seq
  end.

(** src/libcmp.scm:659-677  the loop looking for the cell before [seq] and the exchange *)
Fixpoint fix_head (fuel : nat) (h : heap) (sorted seq p : val) : res (heap * val) :=
  match fuel with
  | O => UB
  | S f =>
    do d <- scdr h p;
    if val_eqb d seq then
      do sorted_car <- scar h sorted;
      do sorted_cdr <- scdr h sorted;
      do seq_car <- scar h seq;
      do seq_cdr <- scdr h seq;
      do h1 <- set_car h sorted seq_car;
      do h2 <- set_cdr h1 sorted seq_cdr;
      do h3 <- set_car h2 seq sorted_car;
      if val_eqb p sorted then
        do h4 <- set_cdr h3 seq sorted; Ok (h4, seq)
      else
        do h4 <- set_cdr h3 seq sorted_cdr;
        do h5 <- set_cdr h4 p sorted;
        Ok (h5, seq)
    else fix_head f h sorted seq d
  end.
(** src/libcmp.scm:654-678  stable-sort! (and sort! with arguments) on a list *)
Definition stable_sortx (less : heap -> val -> val -> res bool) (key : option (val -> val)) (h : heap) (seq : val) : res (heap * val) :=
  do ' (h1, sorted) <- istable_sortx less key h seq;
  if pairp sorted && negb (val_eqb sorted seq)
  then fix_head (S (length h1)) h1 sorted seq sorted
  else Ok (h1, sorted).
(** src/libcmp.scm:754-769  stable-sort (and sort with arguments) on a list *)
Definition stable_sort (less : heap -> val -> val -> res bool) (key : option (val -> val)) (h : heap) (seq : val) : res (heap * val) :=
  if nullp seq then Ok (h, seq)
  else if pairp seq then
    do ' (h1, c) <- copy_list h seq;
    istable_sortx less key h1 c
  else Err.
(** src/libcmp.scm:550-569  sorted? on a vector or list, on the sequence of elements *)
Fixpoint sorted_loop {A K} (less : K -> K -> bool) (key : A -> K) (last : K) (rest : list A) : bool :=
  match rest with
  | [] => true
  | x :: r => let next := key x in negb (less next last) && sorted_loop less key next r
  end.
Definition sorted_p {A K} (less : K -> K -> bool) (key : A -> K) (seq : list A) : bool :=
  match seq with
  | [] => true
  | x :: r => sorted_loop less key (key x) r
  end.
