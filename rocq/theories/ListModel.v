(** The list primitives of src/list.c and the destructive list procedures of
    src/liblist.scm over an explicit heap of pairs.

    A pair is a cell of the heap; the heap is the list of cells, an address is a
    position, allocation appends a cell.  Everything that is not a pair or () is an
    [Atom] compared by eq?.  Simplifications: no lazy pairs, no extended or immutable
    pairs (src/list.c:800-945), so Scm_SetCdr is a plain store.  C loops take fuel;
    the wrappers give [S (length h)] iterations, and running out of fuel is [UB], so a
    theorem concluding [Ok] or [Err] includes termination. *)
From Coq Require Import List Bool ZArith.
From Verif Require Import Outcome.
Import ListNotations.
Local Open Scope Z_scope.

Inductive val := Nil | Atom (n : Z) | Ptr (a : nat).
Definition heap := list (val * val).

Notation "'do' ' p <- e ; f" := (bind e (fun x => let p := x in f))
  (at level 200, p strict pattern, e at level 100, f at level 200, right associativity).

(** SCM_NULLP, SCM_PAIRP, == *)
Definition nullp (v : val) : bool := match v with Nil => true | _ => false end.
Definition pairp (v : val) : bool := match v with Ptr _ => true | _ => false end.
Definition val_eqb (a b : val) : bool :=
  match a, b with
  | Nil, Nil => true
  | Atom x, Atom y => x =? y
  | Ptr x, Ptr y => Nat.eqb x y
  | _, _ => false
  end.
(** SCM_CAR, SCM_CDR: unchecked field access *)
Definition cell (h : heap) (v : val) : res (val * val) :=
  match v with Ptr a => of_opt (nth_error h a) | _ => UB end.
Definition car (h : heap) (v : val) : res val := do c <- cell h v; Ok (fst c).
Definition cdr (h : heap) (v : val) : res val := do c <- cell h v; Ok (snd c).
(** Scm_Cons, src/list.c:58-70 *)
Definition cons_ (h : heap) (x d : val) : heap * val := (h ++ [(x, d)], Ptr (length h)).
Fixpoint store (a : nat) (c : val * val) (h : heap) : heap :=
  match h, a with
  | [], _ => []
  | _ :: r, O => c :: r
  | x :: r, S b => x :: store b c r
  end.
(** SCM_SET_CDR, Scm_SetCdr (src/list.c:224-242) on a plain pair *)
Definition set_cdr (h : heap) (v d : val) : res heap :=
  match v with
  | Ptr a => do c <- of_opt (nth_error h a); Ok (store a (fst c, d) h)
  | _ => Err
  end.
(** Scm_SetCar, src/list.c:205-222 *)
Definition set_car (h : heap) (v x : val) : res heap :=
  match v with
  | Ptr a => do c <- of_opt (nth_error h a); Ok (store a (x, snd c) h)
  | _ => Err
  end.

(** src/gauche.h:806-814  SCM_APPEND1(start, last, obj) *)
Definition append1 (h : heap) (start last x : val) : res (heap * val * val) :=
  let (h1, p) := cons_ h x Nil in
  if nullp start then Ok (h1, p, p)
  else do h2 <- set_cdr h1 last p; do l <- cdr h2 last; Ok (h2, start, l).

(** src/list.c:259-285  Scm_Length2; the answer is the C return value *)
Fixpoint length2_loop (fuel : nat) (h : heap) (allow_dotted : bool) (obj slow : val) (len : Z) : res Z :=
  match fuel with
  | O => UB
  | S f =>
    if nullp obj then Ok len
    else if negb (pairp obj) then Ok (if allow_dotted then len else -1)
    else
      do obj1 <- cdr h obj;
      let len1 := len + 1 in
      if nullp obj1 then Ok len1
      else if negb (pairp obj1) then Ok (if allow_dotted then len1 else -1)
      else
        do obj2 <- cdr h obj1;
        do slow1 <- cdr h slow;
        if val_eqb obj2 slow1 then Ok (-2)
        else length2_loop f h allow_dotted obj2 slow1 (len1 + 1)
  end.
Definition scm_length2 (h : heap) (allow_dotted : bool) (obj : val) : res Z :=
  length2_loop (S (length h)) h allow_dotted obj obj 0.

(** src/liblist.scm:161-164  length; src/liblist.scm:292-294  length+ ([None]: #f) *)
Definition scm_length (h : heap) (obj : val) : res Z :=
  do n <- scm_length2 h false obj; if n <? 0 then Err else Ok n.
Definition length_plus (h : heap) (obj : val) : res (option Z) :=
  do n <- scm_length2 h true obj; Ok (if n <? 0 then None else Some n).
(** src/gauche.h:848-852, liblist.scm:317-319 *)
Definition proper_list_p (h : heap) (v : val) : res bool := do n <- scm_length2 h false v; Ok (0 <=? n).
Definition dotted_list_p (h : heap) (v : val) : res bool := do n <- scm_length2 h false v; Ok (n =? -1).
Definition circular_list_p (h : heap) (v : val) : res bool := do n <- scm_length2 h false v; Ok (n =? -2).

(** src/liblist.scm:168-190  length-cmp-lis. *)
Fixpoint length_cmp_lis_loop (fuel : nat) (h : heap) (hare1 tort1 hare2 tort2 : val) (circle1 circle2 : bool) : res Z :=
  match fuel with
  | O => UB
  | S f =>
    if negb (pairp hare1) then Ok (if pairp hare2 then -1 else 0)
    else if negb (pairp hare2) then Ok 1
    else
      do a1 <- cdr h hare1; do a2 <- cdr h hare2;
      if negb (pairp a1) then Ok (if pairp a2 then -1 else 0)
      else if negb (pairp a2) then Ok 1
      else
        do b1 <- cdr h a1; do b2 <- cdr h a2;
        do t1 <- cdr h tort1; do t2 <- cdr h tort2;
        let c1 := if val_eqb b1 t1 then true else circle1 in
        let c2 := if val_eqb b2 t2 then true else circle2 in
        if c1 && c2 then Ok 0
        else length_cmp_lis_loop f h b1 t1 b2 t2 c1 c2
  end.
Definition length_cmp_lis (h : heap) (l1 l2 : val) : res Z :=
  length_cmp_lis_loop (S (length h)) h l1 l1 l2 l2 false false.

(** src/liblist.scm:190-206  length-cmp-k *)
Fixpoint length_cmp_k_loop (fuel : nat) (h : heap) (hare tort : val) (k : Z) : res Z :=
  match fuel with
  | O => UB
  | S f =>
    if negb (pairp hare) then Ok (if k =? 0 then 0 else -1)
    else if k <=? 0 then Ok 1
    else
      do a <- cdr h hare;
      let k1 := k - 1 in
      if negb (pairp a) then Ok (if k1 =? 0 then 0 else -1)
      else if k1 =? 0 then Ok 1
      else
        do b <- cdr h a; do t <- cdr h tort;
        if val_eqb b t then Ok 1 else length_cmp_k_loop f h b t (k1 - 1)
  end.
Definition length_cmp_k (h : heap) (l : val) (k : Z) : res Z := length_cmp_k_loop (S (length h)) h l l k.
(** src/liblist.scm:210-212  length-cmp-big *)
Definition length_cmp_big (h : heap) (l : val) : res Z :=
  do n <- scm_length2 h false l; Ok (if n <? 0 then 1 else -1).
(** src/liblist.scm:214-220  length-cmp-generic for an exact integer: negative,
    fixnum (62 bits) or bignum *)
Definition length_cmp_int (h : heap) (l : val) (k : Z) : res Z :=
  if k <? 0 then Ok 1
  else if k <? 2 ^ 61 then length_cmp_k h l k
  else length_cmp_big h l.

(** src/liblist.scm:300-315  num-pairs: hare and tortoise, then counting with an eq?
    hash table of visited pairs (here: the list of visited pairs) *)
Fixpoint count_circle (fuel : nat) (h : heap) (seen : list val) (l : val) : res Z :=
  match fuel with
  | O => UB
  | S f => if existsb (val_eqb l) seen then Ok (Z.of_nat (length seen))
           else do d <- cdr h l; count_circle f h (l :: seen) d
  end.
Fixpoint num_pairs_loop (fuel : nat) (h : heap) (orig : val) (n : Z) (slow l : val) : res Z :=
  match fuel with
  | O => UB
  | S f =>
    if pairp l then
      do d <- cdr h l;
      if pairp d then
        if val_eqb slow d then count_circle (S (length h)) h [] orig
        else do s1 <- cdr h slow; do d1 <- cdr h d; num_pairs_loop f h orig (n + 2) s1 d1
      else Ok (n + 1)
    else Ok n
  end.
Definition num_pairs (h : heap) (l : val) : res Z := num_pairs_loop (S (length h)) h l 0 l l.

(** src/list.c:299-320  Scm_CopyList *)
Fixpoint copy_list_loop (fuel : nat) (h : heap) (start last hare tort : val) : res (heap * val * val * val) :=
  match fuel with
  | O => UB
  | S f =>
    if negb (pairp hare) then Ok (h, start, last, hare)
    else
      do x <- car h hare;
      do '(h1, s1, l1) <- append1 h start last x;
      do hare1 <- cdr h1 hare;
      if negb (pairp hare1) then Ok (h1, s1, l1, hare1)
      else
        do x2 <- car h1 hare1;
        do '(h2, s2, l2) <- append1 h1 s1 l1 x2;
        do hare2 <- cdr h2 hare1;
        do tort1 <- cdr h2 tort;
        if val_eqb hare2 tort1 then Err else copy_list_loop f h2 s2 l2 hare2 tort1
  end.
Definition copy_list (h : heap) (l : val) : res (heap * val) :=
  if negb (pairp l) then Ok (h, l)
  else
    do '(h1, start, last, hare) <- copy_list_loop (S (length h)) h Nil Nil l l;
    if nullp hare then Ok (h1, start)
    else do h2 <- set_cdr h1 last hare; Ok (h2, start).

(** src/list.c:335-342  one element of Scm_AlistCopy *)
Definition alist_copy_elt (h : heap) (start last x : val) : res (heap * val * val) :=
  if pairp x then
    do k <- car h x; do v <- cdr h x;
    let (h1, p) := cons_ h k v in append1 h1 start last p
  else append1 h start last x.
(** src/list.c:327-360  Scm_AlistCopy *)
Fixpoint alist_copy_loop (fuel : nat) (h : heap) (start last hare tort : val) : res (heap * val * val) :=
  match fuel with
  | O => UB
  | S f =>
    if negb (pairp hare) then Ok (h, start, hare)
    else
      do x <- car h hare;
      do '(h1, s1, l1) <- alist_copy_elt h start last x;
      do hare1 <- cdr h1 hare;
      if negb (pairp hare1) then Ok (h1, s1, hare1)
      else
        do x2 <- car h1 hare1;
        do '(h2, s2, l2) <- alist_copy_elt h1 s1 l1 x2;
        do hare2 <- cdr h2 hare1;
        do tort1 <- cdr h2 tort;
        if val_eqb hare2 tort1 then Err else alist_copy_loop f h2 s2 l2 hare2 tort1
  end.
Definition alist_copy (h : heap) (l : val) : res (heap * val) :=
  if negb (pairp l) then Ok (h, l)
  else
    do '(h1, start, hare) <- alist_copy_loop (S (length h)) h Nil Nil l l;
    if nullp hare then Ok (h1, start) else Err.

(** src/list.c:367-377  Scm_MakeList *)
Fixpoint make_list_loop (n : nat) (h : heap) (start last fill : val) : res (heap * val) :=
  match n with
  | O => Ok (h, start)
  | S m => do '(h1, s1, l1) <- append1 h start last fill; make_list_loop m h1 s1 l1 fill
  end.
Definition make_list (h : heap) (len : Z) (fill : val) : res (heap * val) :=
  if len <? 0 then Err else make_list_loop (Z.to_nat len) h Nil Nil fill.

(** src/list.c:385-395  Scm_Append2X *)
Fixpoint append2x_loop (fuel : nat) (h : heap) (l obj cp : val) : res (heap * val) :=
  match fuel with
  | O => UB
  | S f => if negb (pairp cp) then Ok (h, obj)
           else do d <- cdr h cp;
                if nullp d then do h1 <- set_cdr h cp obj; Ok (h1, l)
                else append2x_loop f h l obj d
  end.
Definition append2x (h : heap) (l obj : val) : res (heap * val) := append2x_loop (S (length h)) h l obj l.

(** SCM_FOR_EACH(cp, list) SCM_APPEND1(start, last, SCM_CAR(cp)) *)
Fixpoint append_each (fuel : nat) (h : heap) (start last cp : val) : res (heap * val * val * val) :=
  match fuel with
  | O => UB
  | S f => if negb (pairp cp) then Ok (h, start, last, cp)
           else do x <- car h cp;
                do '(h1, s1, l1) <- append1 h start last x;
                do d <- cdr h1 cp;
                append_each f h1 s1 l1 d
  end.
(** src/list.c:402-416  Scm_Append2 *)
Definition append2 (h : heap) (l obj : val) : res (heap * val) :=
  if nullp l then Ok (h, obj)
  else
    do '(h1, start, last, cp) <- append_each (S (length h)) h Nil Nil l;
    if negb (nullp cp) then Err
    else do h2 <- set_cdr h1 last obj; Ok (h2, start).

(** src/list.c:537-551  Scm_LastPair *)
Fixpoint last_pair_loop (fuel : nat) (h : heap) (l slow : val) : res val :=
  match fuel with
  | O => UB
  | S f =>
    do d <- cdr h l;
    if negb (pairp d) then Ok l
    else
      do d2 <- cdr h d;
      if negb (pairp d2) then Ok d
      else do s1 <- cdr h slow;
           if val_eqb d2 s1 then Err else last_pair_loop f h d2 s1
  end.
Definition last_pair (h : heap) (l : val) : res val :=
  if pairp l then last_pair_loop (S (length h)) h l l else Err.

(** src/gauche.h:816-829  SCM_APPEND(start, last, obj) *)
Definition append_macro (h : heap) (start last obj : val) : res (heap * val * val) :=
  if nullp start then
    if nullp obj then Ok (h, obj, last)
    else do l <- last_pair h obj; Ok (h, obj, l)
  else do h1 <- set_cdr h last obj; do l <- last_pair h1 last; Ok (h1, start, l).

(** src/list.c:418-438  Scm_Append.  Simplification: the argument list [args] (fresh,
    made by the caller) is a Coq list of values. *)
Fixpoint append_args (h : heap) (start last : val) (args : list val) : res (heap * val) :=
  match args with
  | [] => Ok (h, start)
  | [x] => if nullp start then Ok (h, x)
           else do h1 <- set_cdr h last x; Ok (h1, start)
  | x :: rest =>
    if nullp x then append_args h start last rest
    else if negb (pairp x) then Err
    else
      do '(h1, c) <- copy_list h x;
      do '(h2, s2, l2) <- append_macro h1 start last c;
      do bad <- (if pairp l2 then do d <- cdr h2 l2; Ok (negb (nullp d)) else Ok false);
      if bad : bool then Err else append_args h2 s2 l2 rest
  end.
Definition append_ (h : heap) (args : list val) : res (heap * val) := append_args h Nil Nil args.

(** src/liblist.scm:365-376  append! *)
Fixpoint append_x_args (h : heap) (hd tl : val) (args : list val) : res (heap * val) :=
  match args with
  | [] => Ok (h, hd)
  | [x] => if nullp hd then Ok (h, x)
           else do h1 <- set_cdr h tl x; Ok (h1, hd)
  | x :: rest =>
    do '(h2, s2, l2) <- append_macro h hd tl x;
    do bad <- (if nullp l2 then Ok false else do d <- cdr h2 l2; Ok (negb (nullp d)));
    if bad : bool then Err else append_x_args h2 s2 l2 rest
  end.
Definition append_x (h : heap) (args : list val) : res (heap * val) := append_x_args h Nil Nil args.

(** src/list.c:448-465  Scm_Reverse2 *)
Fixpoint reverse2_loop (fuel : nat) (h : heap) (result cp : val) : res (heap * val) :=
  match fuel with
  | O => UB
  | S f => if negb (pairp cp) then Ok (h, result)
           else do x <- car h cp;
                do h1 <- set_car h result x;
                let (h2, p) := cons_ h1 Nil result in
                do d <- cdr h2 cp;
                reverse2_loop f h2 p d
  end.
Definition reverse2 (h : heap) (l tail : val) : res (heap * val) :=
  if negb (pairp l) then Ok (h, tail)
  else
    let (h1, p) := cons_ h Nil tail in
    do '(h2, r) <- reverse2_loop (S (length h)) h1 p l;
    do d <- cdr h2 r; Ok (h2, d).

(** src/list.c:480-490  Scm_Reverse2X *)
Fixpoint reverse2x_loop (fuel : nat) (h : heap) (first result : val) : res (heap * val) :=
  match fuel with
  | O => UB
  | S f => if negb (pairp first) then Ok (h, result)
           else do next <- cdr h first;
                do h1 <- set_cdr h first result;
                reverse2x_loop f h1 next first
  end.
Definition reverse2x (h : heap) (l tail : val) : res (heap * val) :=
  if negb (pairp l) then Ok (h, tail) else reverse2x_loop (S (length h)) h l tail.

(** src/list.c:502-514  Scm_ListTail; the err label gives the fallback ([Some]) or an
    error.  The loop runs i times. *)
Fixpoint list_tail_loop (cnt : nat) (h : heap) (l : val) : res (option val) :=
  match cnt with
  | O => Ok (Some l)
  | S c => if negb (pairp l) then Ok None else do d <- cdr h l; list_tail_loop c h d
  end.
Definition or_fallback (r : option val) (fallback : option val) : res val :=
  match r with Some v => Ok v | None => match fallback with Some v => Ok v | None => Err end end.
Definition list_tail (h : heap) (l : val) (i : Z) (fallback : option val) : res val :=
  do r <- (if i <? 0 then Ok None else list_tail_loop (Z.to_nat i) h l); or_fallback r fallback.
(** src/list.c:516-531  Scm_ListRef *)
Definition list_ref (h : heap) (l : val) (i : Z) (fallback : option val) : res val :=
  do r <- (if i <? 0 then Ok None else list_tail_loop (Z.to_nat i) h l);
  do x <- (match r with
           | Some p => if negb (pairp p) then Ok None else do a <- car h p; Ok (Some a)
           | None => Ok None
           end);
  or_fallback x fallback.
(** src/liblist.scm:261-267  list-set! *)
Definition list_set (h : heap) (l : val) (k : Z) (v : val) : res heap :=
  if negb (pairp l) then Err
  else do p <- list_tail h l k (Some (Atom 0));
       if pairp p then set_car h p v else Err.

(** src/liblist.scm:325-338  %list-range-copy *)
Fixpoint range_copy_loop (k : nat) (h : heap) (hd tl xs : val) : res (heap * val) :=
  match k with
  | O => Ok (h, hd)
  | S j => if negb (pairp xs) then Err
           else do x <- car h xs;
                do '(h1, hd1, tl1) <- append1 h hd tl x;
                do d <- cdr h1 xs;
                range_copy_loop j h1 hd1 tl1 d
  end.
Definition list_range_copy (h : heap) (l : val) (start end_ : Z) : res (heap * val) :=
  do xs <- list_tail h l start None;
  if end_ - start <? 0 then Err
  else range_copy_loop (Z.to_nat (end_ - start)) h Nil Nil xs.
(** src/liblist.scm:340-345  list-copy *)
Definition list_copy (h : heap) (l : val) (start end_ : Z) : res (heap * val) :=
  if end_ =? -1 then
    if start =? 0 then copy_list h l
    else do xs <- list_tail h l start None; copy_list h xs
  else list_range_copy h l start end_.

Section Eq.
(** Scm_EqualM(obj, x, cmpmode).  Simplification: the comparison does not read the
    heap, so for equal? the elements must not be part of the spine being changed. *)
Variable eqm : val -> val -> bool.

(** src/list.c:560-580  Scm_Memq, Scm_Memv, Scm_Member *)
Fixpoint member_loop (fuel : nat) (h : heap) (obj l : val) : res val :=
  match fuel with
  | O => UB
  | S f => if negb (pairp l) then Ok (Atom 0)   (* #f *)
           else do x <- car h l;
                if eqm obj x then Ok l else do d <- cdr h l; member_loop f h obj d
  end.
Definition member (h : heap) (obj l : val) : res val := member_loop (S (length h)) h obj l.

(** src/list.c:590-591, 675-676  for (; prev != cp; ...) SCM_APPEND1(start, last, SCM_CAR(prev)) *)
Fixpoint catch_up (fuel : nat) (h : heap) (start last prev cp : val) : res (heap * val * val) :=
  match fuel with
  | O => UB
  | S f => if val_eqb prev cp then Ok (h, start, last)
           else do x <- car h prev;
                do '(h1, s1, l1) <- append1 h start last x;
                do d <- cdr h1 prev;
                catch_up f h1 s1 l1 d cp
  end.
(** the loop shared by src/list.c:587-594 (Scm_Delete) and 671-680 (Scm_AssocDelete):
    [hit h x] tells whether the element x is to be removed *)
Fixpoint delete_loop (hit : heap -> val -> res bool) (fuel : nat) (n0 : nat) (h : heap) (start last prev cp : val) : res (heap * val * val * val) :=
  match fuel with
  | O => UB
  | S f =>
    if negb (pairp cp) then Ok (h, start, last, prev)
    else
      do x <- car h cp;
      do m <- hit h x;
      if m : bool then
        do '(h1, s1, l1) <- catch_up (S n0) h start last prev cp;
        do d <- cdr h1 cp;
        delete_loop hit f n0 h1 s1 l1 d d
      else do d <- cdr h cp; delete_loop hit f n0 h start last prev d
  end.
Definition delete_gen (hit : heap -> val -> res bool) (h : heap) (l : val) : res (heap * val) :=
  if nullp l then Ok (h, Nil)
  else
    do '(h1, start, last, prev) <- delete_loop hit (S (length h)) (length h) h Nil Nil l l;
    if val_eqb l prev then Ok (h1, l)
    else if nullp start then Ok (h1, prev)
    else if pairp prev then do h2 <- set_cdr h1 last prev; Ok (h2, start)
    else Ok (h1, start).
(** src/list.c:583-599  Scm_Delete *)
Definition delete (h : heap) (obj l : val) : res (heap * val) :=
  delete_gen (fun _ x => Ok (eqm obj x)) h l.
(** src/list.c:671-674  the test of Scm_AssocDelete *)
Definition alist_hit (obj : val) (h : heap) (x : val) : res bool :=
  if pairp x then do k <- car h x; Ok (eqm obj k) else Ok false.
(** src/list.c:662-684  Scm_AssocDelete *)
Definition alist_delete (h : heap) (obj l : val) : res (heap * val) :=
  if negb (nullp l || pairp l) then Err else delete_gen (alist_hit obj) h l.

(** src/list.c:601-616  Scm_DeleteX *)
Fixpoint deletex_loop (fuel : nat) (h : heap) (obj l prev cp : val) : res (heap * val) :=
  match fuel with
  | O => UB
  | S f =>
    if negb (pairp cp) then Ok (h, l)
    else
      do x <- car h cp;
      if eqm obj x then
        do d <- cdr h cp;
        if nullp prev then deletex_loop f h obj d prev d
        else do h1 <- set_cdr h prev d; do d1 <- cdr h1 cp; deletex_loop f h1 obj l prev d1
      else do d <- cdr h cp; deletex_loop f h obj l cp d
  end.
Definition deletex (h : heap) (obj l : val) : res (heap * val) := deletex_loop (S (length h)) h obj l Nil l.

(** src/list.c:625-659  Scm_Assq, Scm_Assv, Scm_Assoc *)
Fixpoint assoc_loop (fuel : nat) (h : heap) (obj cp : val) : res val :=
  match fuel with
  | O => UB
  | S f =>
    if negb (pairp cp) then Ok (Atom 0)
    else
      do entry <- car h cp;
      do m <- alist_hit obj h entry;
      if m : bool then Ok entry else do d <- cdr h cp; assoc_loop f h obj d
  end.
Definition assoc (h : heap) (obj l : val) : res val :=
  if negb (nullp l || pairp l) then Err else assoc_loop (S (length h)) h obj l.

(** src/list.c:686-708  Scm_AssocDeleteX.  Note [prev = cp] also after an unlink. *)
Fixpoint alist_deletex_loop (fuel : nat) (h : heap) (obj l prev cp : val) : res (heap * val) :=
  match fuel with
  | O => UB
  | S f =>
    if negb (pairp cp) then Ok (h, l)
    else
      do e <- car h cp;
      do m <- alist_hit obj h e;
      do d <- cdr h cp;
      if m : bool then
        if nullp prev then alist_deletex_loop f h obj d prev d
        else do h1 <- set_cdr h prev d; do d1 <- cdr h1 cp; alist_deletex_loop f h1 obj l cp d1
      else alist_deletex_loop f h obj l cp d
  end.
Definition alist_deletex (h : heap) (obj l : val) : res (heap * val) :=
  if negb (nullp l || pairp l) then Err else alist_deletex_loop (S (length h)) h obj l Nil l.

(** src/list.c:711-721  Scm_DeleteDuplicates.  The search in the result list uses
    fuel from the grown heap. *)
Fixpoint delete_dup_loop (fuel : nat) (h : heap) (result tail lp : val) : res (heap * val * val * val) :=
  match fuel with
  | O => UB
  | S f =>
    if negb (pairp lp) then Ok (h, result, tail, lp)
    else
      do x <- car h lp;
      do m <- member h x result;
      if val_eqb m (Atom 0) then
        do '(h1, r1, t1) <- append1 h result tail x;
        do d <- cdr h1 lp; delete_dup_loop f h1 r1 t1 d
      else do d <- cdr h lp; delete_dup_loop f h result tail d
  end.
Definition delete_duplicates (h : heap) (l : val) : res (heap * val) :=
  do '(h1, result, tail, lp) <- delete_dup_loop (S (length h)) h Nil Nil l;
  if negb (nullp lp) && negb (nullp tail) then do h2 <- set_cdr h1 tail lp; Ok (h2, result)
  else Ok (h1, result).

(** src/list.c:723-733  Scm_DeleteDuplicatesX *)
Fixpoint delete_dupx_loop (fuel : nat) (h : heap) (lp : val) : res heap :=
  match fuel with
  | O => UB
  | S f =>
    if negb (pairp lp) then Ok h
    else
      do obj <- car h lp;
      do d <- cdr h lp;
      do '(h1, tail) <- deletex h obj d;
      do d1 <- cdr h1 lp;
      do h2 <- (if val_eqb d1 tail then Ok h1 else set_cdr h1 lp tail);
      do d2 <- cdr h2 lp;
      delete_dupx_loop f h2 d2
  end.
Definition delete_duplicatesx (h : heap) (l : val) : res (heap * val) :=
  do h1 <- delete_dupx_loop (S (length h)) h l; Ok (h1, l).
End Eq.

(** src/liblist.scm:573-587  filter!, with its loops keep! and skip! *)
Section Filter.
Variable pred : val -> bool.
Fixpoint filterx_loop (fuel : nat) (h : heap) (skip : bool) (prev l : val) : res heap :=
  match fuel with
  | O => UB
  | S f =>
    if negb (pairp l) then (if skip then set_cdr h prev l else Ok h)
    else
      do x <- car h l;
      if pred x then
        do h1 <- (if skip then set_cdr h prev l else Ok h);
        do d <- cdr h1 l; filterx_loop f h1 false l d
      else do d <- cdr h l; filterx_loop f h true prev d
  end.
Fixpoint filterx_restart (fuel : nat) (h : heap) (ans : val) : res (heap * val) :=
  match fuel with
  | O => UB
  | S f =>
    if nullp ans then Ok (h, ans)
    else if negb (pairp ans) then Err
    else
      do x <- car h ans;
      if pred x then
        do d <- cdr h ans; do h1 <- filterx_loop (S (length h)) h false ans d; Ok (h1, ans)
      else do d <- cdr h ans; filterx_restart f h d
  end.
Definition filterx (h : heap) (l : val) : res (heap * val) := filterx_restart (S (length h)) h l.
End Filter.

(** src/liblist.scm:703-709  split-at! ; None in [prev]: #f *)
Fixpoint split_atx_loop (i : nat) (h : heap) (lis rest : val) (prev : option val) : res (heap * val * val) :=
  match i with
  | O => match prev with
         | Some p => do h1 <- set_cdr h p Nil; Ok (h1, lis, rest)
         | None => Ok (h, Nil, rest)
         end
  | S j => if negb (pairp rest) then Err      (* null: error; otherwise (cdr rest) fails *)
           else do d <- cdr h rest; split_atx_loop j h lis d (Some rest)
  end.
Definition split_atx (h : heap) (lis : val) (i : Z) : res (heap * val * val) :=
  if i <? 0 then Err      (* counts down past 0 until the list runs out *)
  else split_atx_loop (Z.to_nat i) h lis lis None.

(** src/liblist.scm:740-742  take! *)
Definition takex (h : heap) (lis : val) (k : Z) : res (heap * val) :=
  if k =? 0 then Ok (h, Nil)
  else do p <- list_tail h lis (k - 1) None;
       if pairp p then do h1 <- set_cdr h p Nil; Ok (h1, lis) else Err.

(** src/liblist.scm:732-734  take-right *)
Fixpoint lockstep (fuel : nat) (h : heap) (p0 p1 : val) : res val :=
  match fuel with
  | O => UB
  | S f => if pairp p0 then do a <- cdr h p0; do b <- cdr h p1; lockstep f h a b else Ok p1
  end.
Definition take_right (h : heap) (lis : val) (k : Z) : res val :=
  do p0 <- list_tail h lis k None; lockstep (S (length h)) h p0 lis.
(** src/liblist.scm:744-751  drop-right! *)
Definition drop_rightx (h : heap) (lis : val) (k : Z) : res (heap * val) :=
  do p0 <- list_tail h lis k None;
  if pairp p0 then
    do d <- cdr h p0;
    do p1 <- lockstep (S (length h)) h d lis;
    do h1 <- set_cdr h p1 Nil; Ok (h1, lis)
  else Ok (h, Nil).
