(** lib/data/ideque.scm: banker's deques.  Lists are values; [lappend] is append.
    Predicates and procedures are pure functions (booleans for predicates).
    Only the one-deque cases of the variadic procedures are modelled, plus two-argument
    ideque= and n-ary ideque-append. *)
From Coq Require Import List Bool Arith.
From Verif Require Import Outcome.
Import ListNotations.

(** lib/data/ideque.scm:69-73  <ideque> *)
Record dq (A : Type) := mk_dq { lenf : nat; f : list A; lenr : nat; r : list A }.
Arguments mk_dq {A} lenf f lenr r.
Arguments lenf {A} d.
Arguments f {A} d.
Arguments lenr {A} d.
Arguments r {A} d.

Section Ideque.
Context {A : Type}.
Notation dq := (dq A).
(** lib/data/ideque.scm:76  *empty* *)
Definition empty : dq := mk_dq 0 [] 0 [].
(** scheme.list take, drop, take-right: an error if the list is too short *)
Definition take (l : list A) (n : nat) : res (list A) := if n <=? length l then Ok (firstn n l) else Err.
Definition drop (l : list A) (n : nat) : res (list A) := if n <=? length l then Ok (skipn n l) else Err.
Definition take_right (l : list A) (n : nat) : res (list A) := if n <=? length l then Ok (skipn (length l - n) l) else Err.
(** lib/data/ideque.scm:83-87  make-ideque *)
Definition make_ideque (n : nat) (init : A) : dq :=
  let lf := n / 2 in let lr := n - lf in mk_dq lf (repeat init lf) lr (repeat init lr).
(** lib/data/ideque.scm:103-112  ideque-tabulate *)
Definition ideque_tabulate (size : nat) (init : nat -> A) : dq :=
  let lf := size / 2 in let lr := (size + 1) / 2 in
  mk_dq lf (map init (seq 0 lf)) lr (map (fun n => init (size - n - 1)) (seq 0 lr)).
(** lib/data/ideque.scm:114-130  C, check *)
Definition C : nat := 3.
Definition check (lenf : nat) (f : list A) (lenr : nat) (r : list A) : res dq :=
  if lenr * C + 1 <? lenf then
    let i := (lenf + lenr) / 2 in let j := lenf + lenr - i in
    do f1 <- take f i; do d <- drop f i; Ok (mk_dq i f1 j (r ++ rev d))
  else if lenf * C + 1 <? lenr then
    let j := (lenf + lenr) / 2 in let i := lenf + lenr - j in
    do r1 <- take r j; do d <- drop r j; Ok (mk_dq i (f ++ rev d) j r1)
  else Ok (mk_dq lenf f lenr r).
(** lib/data/ideque.scm:137-139 *)
Definition ideque_empty (d : dq) : bool := (lenf d =? 0) && (lenr d =? 0).
Definition car (l : list A) : res A := match l with [] => Err | x :: _ => Ok x end.
Definition cdr (l : list A) : res (list A) := match l with [] => Err | _ :: s => Ok s end.
(** lib/data/ideque.scm:142-182 *)
Definition ideque_add_front (d : dq) (x : A) : res dq := check (lenf d + 1) (x :: f d) (lenr d) (r d).
Definition ideque_front (d : dq) : res A :=
  if lenf d =? 0 then if lenr d =? 0 then Err else car (r d) else car (f d).
Definition ideque_remove_front (d : dq) : res dq :=
  if lenf d =? 0 then if lenr d =? 0 then Err else Ok empty
  else do s <- cdr (f d); check (lenf d - 1) s (lenr d) (r d).
Definition ideque_add_back (d : dq) (x : A) : res dq := check (lenf d) (f d) (lenr d + 1) (x :: r d).
Definition ideque_back (d : dq) : res A :=
  if lenr d =? 0 then if lenf d =? 0 then Err else car (f d) else car (r d).
Definition ideque_remove_back (d : dq) : res dq :=
  if lenr d =? 0 then if lenf d =? 0 then Err else Ok empty
  else do s <- cdr (r d); check (lenf d) (f d) (lenr d - 1) s.
Definition ideque_reverse (d : dq) : dq := if ideque_empty d then empty else mk_dq (lenr d) (r d) (lenf d) (f d).
(** lib/data/ideque.scm:517, 521-523  ideque->list, list->ideque (whole list) *)
Definition ideque_to_list (d : dq) : list A := f d ++ rev (r d).
Definition list_to_ideque (l : list A) : res dq := check (length l) l 0 [].
(** lib/data/ideque.scm:226-231  list-prefix= *)
Fixpoint list_prefix_eq (eq : A -> A -> bool) (a b : list A) : bool * list A * list A :=
  match a, b with
  | x :: a1, y :: b1 => if eq x y then list_prefix_eq eq a1 b1 else (false, a, b)
  | _, _ => (true, a, b)
  end.
(** (list= elt= a b) *)
Fixpoint list_eq (eq : A -> A -> bool) (a b : list A) : bool :=
  match a, b with
  | [], [] => true
  | x :: a1, y :: b1 => eq x y && list_eq eq a1 b1
  | _, _ => false
  end.
(** lib/data/ideque.scm:197-222  ideque= on two deques; [same] is (eq? dq1 dq2) *)
Definition ideque_eq (same : bool) (eq : A -> A -> bool) (d1 d2 : dq) : bool :=
  same ||
  ((lenf d1 + lenr d1 =? lenf d2 + lenr d2) &&
   (let '(x, t1, t2) := list_prefix_eq eq (f d1) (f d2) in
    x && (let '(y, r1, r2) := list_prefix_eq eq (r d1) (r d2) in
          y && match t1 with
               | [] => list_eq eq t2 (rev r1)
               | _ => list_eq eq t1 (rev r2)
               end))).
(** list-ref *)
Definition list_ref (l : list A) (n : nat) : res A := match nth_error l n with Some x => Ok x | None => Err end.
(** lib/data/ideque.scm:234-238  ideque-ref, non-negative index *)
Definition ideque_ref (d : dq) (n : nat) : res A :=
  let len := lenf d + lenr d in
  if len <=? n then Err
  else if n <? lenf d then list_ref (f d) n
  else list_ref (r d) (len - n - 1).
(** lib/data/ideque.scm:240-286 *)
Definition take_ (d : dq) (n : nat) : res dq :=
  if n <=? lenf d then do s <- take (f d) n; check n s 0 []
  else let lenr' := n - lenf d in do s <- take_right (r d) lenr'; check (lenf d) (f d) lenr' s.
Definition drop_ (d : dq) (n : nat) : res dq :=
  if n <=? lenf d then do s <- drop (f d) n; check (lenf d - n) s (lenr d) (r d)
  else let lenr' := lenr d - (n - lenf d) in do s <- take (r d) lenr'; check 0 [] lenr' s.
Definition ideque_length (d : dq) : nat := lenf d + lenr d.
Definition ideque_take (d : dq) (n : nat) : res dq := if n <=? ideque_length d then take_ d n else Err.
Definition ideque_take_right (d : dq) (n : nat) : res dq := if n <=? ideque_length d then drop_ d (ideque_length d - n) else Err.
Definition ideque_drop (d : dq) (n : nat) : res dq := if n <=? ideque_length d then drop_ d n else Err.
Definition ideque_drop_right (d : dq) (n : nat) : res dq := if n <=? ideque_length d then take_ d (ideque_length d - n) else Err.
(** lib/data/ideque.scm:289-292  ideque-append *)
Definition ideque_append (ds : list dq) : res dq := list_to_ideque (concat (map ideque_to_list ds)).
(** lib/data/ideque.scm:295-298  ideque-count *)
Definition ideque_count (p : A -> bool) (d : dq) : nat := length (filter p (f d)) + length (filter p (r d)).
(** lib/data/ideque.scm:342-357  ideque-filter, -remove, -partition *)
Definition ideque_filter (p : A -> bool) (d : dq) : res dq :=
  let f1 := filter p (f d) in let r1 := filter p (r d) in check (length f1) f1 (length r1) r1.
Definition ideque_remove (p : A -> bool) (d : dq) : res dq := ideque_filter (fun x => negb (p x)) d.
Definition ideque_partition (p : A -> bool) (d : dq) : res (dq * dq) :=
  let '(f1, f2) := partition p (f d) in
  let '(r1, r2) := partition p (r d) in
  do a <- check (length f1) f1 (length r1) r1; do b <- check (length f2) f2 (length r2) r2; Ok (a, b).
(** lib/data/ideque.scm:320-334  ideque-fold, ideque-fold-right *)
Definition ideque_fold {S} (proc : A -> S -> S) (knil : S) (d : dq) : S :=
  fold_left (fun s x => proc x s) (rev (r d)) (fold_left (fun s x => proc x s) (f d) knil).
Definition ideque_fold_right {S} (proc : A -> S -> S) (knil : S) (d : dq) : S :=
  fold_right proc (fold_right proc knil (rev (r d))) (f d).
(** lib/data/ideque.scm:361-387  %search, ideque-find, ideque-find-right; [None] is the failure thunk *)
Definition search (p : A -> bool) (s1 s2 : list A) : option A :=
  match find p s1 with Some x => Some x | None => find p (rev s2) end.
Definition ideque_find (p : A -> bool) (d : dq) : option A := search p (f d) (r d).
Definition ideque_find_right (p : A -> bool) (d : dq) : option A := search p (r d) (f d).
(** span *)
Fixpoint span (p : A -> bool) (l : list A) : list A * list A :=
  match l with
  | [] => ([], [])
  | x :: s => if p x then let '(a, b) := span p s in (x :: a, b) else ([], l)
  end.
(** lib/data/ideque.scm:390-410  take-while, drop-while and their -right versions *)
Definition ideque_take_while (p : A -> bool) (d : dq) : res dq :=
  let '(hd, tl) := span p (f d) in
  match tl with
  | [] => let '(hd', tl') := span p (rev (r d)) in check (lenf d) (f d) (length hd') (rev hd')
  | _ => check (length hd) hd 0 []
  end.
Definition ideque_take_while_right (p : A -> bool) (d : dq) : res dq :=
  do t <- ideque_take_while p (ideque_reverse d); Ok (ideque_reverse t).
Definition ideque_drop_while (p : A -> bool) (d : dq) : res dq :=
  let '(hd, tl) := span p (f d) in
  match tl with
  | [] => let '(hd', tl') := span p (rev (r d)) in check (length tl') tl' 0 []
  | _ => check (length tl) tl (lenr d) (r d)
  end.
Definition ideque_drop_while_right (p : A -> bool) (d : dq) : res dq :=
  do t <- ideque_drop_while p (ideque_reverse d); Ok (ideque_reverse t).
(** lib/data/ideque.scm:412-424  ideque-span, ideque-break *)
Definition ideque_span (p : A -> bool) (d : dq) : res (dq * dq) :=
  let '(head, tail) := span p (f d) in
  match tail with
  | [] => let '(head', tail') := span p (rev (r d)) in
      do a <- check (length head) head (length head') (rev head'); do b <- check (length tail') tail' 0 []; Ok (a, b)
  | _ => do a <- check (length head) head 0 []; do b <- check (length tail) tail (lenr d) (r d); Ok (a, b)
  end.
Definition ideque_break (p : A -> bool) (d : dq) : res (dq * dq) := ideque_span (fun x => negb (p x)) d.
(** lib/data/ideque.scm:427-441  ideque-any, ideque-every with a boolean predicate *)
Definition ideque_any (p : A -> bool) (d : dq) : bool :=
  match r d with [] => existsb p (f d) | _ => existsb p (f d) || existsb p (rev (r d)) end.
Definition ideque_every (p : A -> bool) (d : dq) : bool :=
  match r d with [] => forallb p (f d) | _ => forallb p (f d) && forallb p (rev (r d)) end.
(** lib/data/ideque.scm:453-457  ideque->generator, called until it answers eof *)
Fixpoint generate (fuel : nat) (d : dq) : res (list A) :=
  match fuel with
  | O => UB
  | S n => if ideque_empty d then Ok []
           else do v <- ideque_front d; do d1 <- ideque_remove_front d; do l <- generate n d1; Ok (v :: l)
  end.
End Ideque.
(** lib/data/ideque.scm:305-318  ideque-map, ideque-filter-map *)
Definition ideque_map {A B} (p : A -> B) (d : dq A) : dq B := mk_dq (lenf d) (map p (f d)) (lenr d) (map p (r d)).
Definition filter_map {A B} (p : A -> option B) (l : list A) : list B :=
  flat_map (fun x => match p x with Some y => [y] | None => [] end) l.
Definition ideque_filter_map {A B} (p : A -> option B) (d : dq A) : res (dq B) :=
  let f1 := filter_map p (f d) in let r1 := filter_map p (r d) in check (length f1) f1 (length r1) r1.
