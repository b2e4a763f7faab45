(** lib/data/skew-list.scm: skew binary random access lists.
    A tree is `(Leaf x)` or `(Node x t1 t2)`; a skew list is its list of
    (weight . tree) pairs.  Argument type checks (assume-type) are not modelled. *)
From Coq Require Import List Bool ZArith.
From Verif Require Import Outcome.
Import ListNotations.
Local Open Scope Z_scope.

Notation "'do' ' p <- e ; f" := (bind e (fun x => let p := x in f))
  (at level 200, p strict pattern, e at level 100, f at level 200, right associativity).

Inductive stree (A : Type) := Leaf (x : A) | Node (x : A) (t1 t2 : stree A).
Arguments Leaf {A} x.
Arguments Node {A} x t1 t2.

Section Skew.
Context {A : Type}.
Definition skew := list (Z * stree A).

(** lib/data/skew-list.scm:82-83  /2, /4 *)
Definition half (n : Z) : Z := n / 2.
Definition quarter (n : Z) : Z := n / 4.

(** lib/data/skew-list.scm:94-101  skew-list-cons *)
Definition skew_cons (x : A) (y : skew) : skew :=
  match y with
  | (w1, t1) :: (w2, t2) :: ts =>
      if w1 =? w2 then (1 + w1 + w2, Node x t1 t2) :: ts else (1, Leaf x) :: y
  | _ => (1, Leaf x) :: y
  end.
(** lib/data/skew-list.scm:103-108  skew-list-car *)
Definition skew_car (sl : skew) : res A :=
  match sl with
  | [] => Err
  | (_, Leaf x) :: _ => Ok x
  | (_, Node x _ _) :: _ => Ok x
  end.
(** lib/data/skew-list.scm:110-116  skew-list-cdr *)
Definition skew_cdr (sl : skew) : res skew :=
  match sl with
  | [] => Err
  | (_, Leaf _) :: ts => Ok ts
  | (w, Node x t1 t2) :: ts => Ok ((half w, t1) :: (half w, t2) :: ts)
  end.

(** (cadr t) *)
Definition root (t : stree A) : A := match t with Leaf x => x | Node x _ _ => x end.
(** lib/data/skew-list.scm:118-139  skew-list-ref; [None]: index out of range, i.e. the
    fallback or an error; match-let1 on a Leaf is an error *)
Fixpoint tree_ref (w i : Z) (t : stree A) : res (option A) :=
  if i =? 0 then Ok (Some (root t))
  else if w =? 1 then Ok None
  else match t with
       | Leaf _ => Err
       | Node x t1 t2 =>
           let w2 := half w in
           if i <=? w2 then tree_ref w2 (i - 1) t1 else tree_ref w2 (i - 1 - w2) t2
       end.
Fixpoint skew_ref (ts : skew) (i : Z) : res (option A) :=
  match ts with
  | [] => Ok None
  | (w, t) :: r => if i <? w then tree_ref w i t else skew_ref r (i - w)
  end.
Definition skew_list_ref (sl : skew) (n : Z) (fallback : option A) : res A :=
  do r <- skew_ref sl n;
  match r with
  | Some x => Ok x
  | None => match fallback with Some f => Ok f | None => Err end
  end.

(** lib/data/skew-list.scm:141-163  skew-list-set *)
Fixpoint tree_set (v : A) (w i : Z) (t : stree A) : res (stree A) :=
  if i =? 0 then Ok (match t with Leaf _ => Leaf v | Node _ t1 t2 => Node v t1 t2 end)
  else if w =? 1 then Err
  else match t with
       | Leaf _ => Err
       | Node x t1 t2 =>
           let w2 := half w in
           if i <=? w2 then do t <- tree_set v w2 (i - 1) t1; Ok (Node x t t2)
           else do t <- tree_set v w2 (i - 1 - w2) t2; Ok (Node x t1 t)
       end.
Fixpoint skew_set (v : A) (ts : skew) (i : Z) : res skew :=
  match ts with
  | [] => Err
  | (w, t) :: r => if i <? w then do t1 <- tree_set v w i t; Ok ((w, t1) :: r)
                   else do r1 <- skew_set v r (i - w); Ok ((w, t) :: r1)
  end.

(** integer-length of a non-negative integer *)
Definition integer_length (n : Z) : Z := if n =? 0 then 0 else Z.log2 n + 1.
(** lib/data/skew-list.scm:176-180  series-2^n-1 *)
Fixpoint series (fuel : nat) (n : Z) : res (list Z) :=
  match fuel with
  | O => UB
  | S f =>
    if n =? 0 then Ok []
    else if n =? 1 then Ok [1]
    else let k := 2 ^ (integer_length (n + 1) - 1) - 1 in
         do r <- series f (n - k); Ok (k :: r)
  end.
(** lib/data/skew-list.scm:184-190  make-tree *)
Fixpoint make_tree (fuel : nat) (n : Z) (lis : list A) : res (stree A * list A) :=
  match fuel with
  | O => UB
  | S f =>
    match lis with
    | [] => Err
    | x :: r =>
      if n =? 1 then Ok (Leaf x, r)
      else
        let n2 := (n - 1) / 2 in
        do ' (t1, r1) <- make_tree f n2 r;
        do ' (t2, r2) <- make_tree f n2 r1;
        Ok (Node x t1 t2, r2)
    end
  end.
(** lib/data/skew-list.scm:193-198  make-forest *)
Fixpoint make_forest (ns : list Z) (lis : list A) : res (skew * list A) :=
  match ns with
  | [] => Ok ([], lis)
  | n :: nr =>
    do ' (t, r) <- make_tree (S (length lis)) n lis;
    do ' (f, r1) <- make_forest nr r;
    Ok ((n, t) :: f, r1)
  end.
(** lib/data/skew-list.scm:169-209  list*->skew-list, list->skew-list on a proper list *)
Definition list_to_skew (lis : list A) : res skew :=
  let n := Z.of_nat (length lis) in
  do s <- series (S (length lis)) n;
  do ' (f, _) <- make_forest (rev s) lis;
  Ok f.

(** lib/data/skew-list.scm:227-234  skew-list-fold *)
Fixpoint tree_fold {B} (proc : A -> B -> B) (t : stree A) (seed : B) : B :=
  match t with
  | Leaf x => proc x seed
  | Node x t1 t2 => tree_fold proc t2 (tree_fold proc t1 (proc x seed))
  end.
Definition skew_fold {B} (sl : skew) (proc : A -> B -> B) (seed : B) : B :=
  fold_left (fun s p => tree_fold proc (snd p) s) sl seed.
(** lib/data/skew-list.scm:211-213  skew-list->list *)
Definition skew_to_list (sl : skew) : list A := rev (skew_fold sl cons []).
(** lib/data/skew-list.scm:246-255  skew-list-length, skew-list-length<=? *)
Definition skew_length (sl : skew) : Z := fold_left (fun s p => fst p + s) sl 0.
Fixpoint length_le_loop (es : skew) (k s : Z) : bool :=
  if k <? s then false
  else match es with [] => true | (w, _) :: r => length_le_loop r k (s + w) end.
Definition skew_length_le (sl : skew) (k : Z) : bool := length_le_loop sl k 0.

(** lib/data/skew-list.scm:260-267  tree-kth-and-after *)
Fixpoint kth_and_after (t : stree A) (n k : Z) (tail : list (stree A)) : res (list (stree A)) :=
  if k =? 0 then Ok (t :: tail)
  else match t with
       | Leaf _ => Err
       | Node _ t1 t2 =>
           let m := half n in
           if k <=? m then kth_and_after t1 m (k - 1) (t2 :: tail) else kth_and_after t2 m (k - m - 1) tail
       end.
(** lib/data/skew-list.scm:271-274  skip-seq *)
Fixpoint skip_seq (seq : skew) (k : Z) : res (skew * Z) :=
  match seq with
  | [] => Err
  | (w, _) :: r => if k <? w then Ok (seq, k) else skip_seq r (k - w)
  end.
(** lib/data/skew-list.scm:282-288  next, iterated until it answers end-of-sequence; the
    list of the answers *)
Fixpoint iter_all (fuel : nat) (seq : skew) (stack : list (stree A)) (pos end_ : Z) : res (list A) :=
  match fuel with
  | O => UB
  | S f =>
    if pos =? end_ then Ok []
    else match stack with
         | [] => match seq with [] => Err | (_, t) :: r => iter_all f r [t] pos end_ end
         | Leaf x :: xs => do l <- iter_all f seq xs (pos + 1) end_; Ok (x :: l)
         | Node x t1 t2 :: xs => do l <- iter_all f seq (t1 :: t2 :: xs) (pos + 1) end_; Ok (x :: l)
         end
  end.
(** lib/data/skew-list.scm:276-317  %skew-list-iterator as used by skew-list->generator and
    skew-list->lseq *)
Definition skew_to_lseq (sl : skew) (start : Z) (end_ : option Z) : res (list A) :=
  let e := match end_ with Some e => e | None => skew_length sl end in
  if negb (start <=? e) then Err
  else
    let fuel := S (Z.to_nat (e - start) + length sl) in
    if 0 <? start then
      do ' (seq, k) <- skip_seq sl start;
      match seq with
      | [] => Err
      | (w, t) :: r => do stack <- kth_and_after t w k []; iter_all fuel r stack start e
      end
    else iter_all fuel sl [] start e.

(** lib/data/skew-list.scm:340-344  trivial-prefix: the number of trees taken *)
Fixpoint trivial_prefix (seq : skew) (k sum : Z) (i : nat) : res (option nat) :=
  if k =? sum then Ok (Some i)
  else if sum <? k then
    match seq with [] => Err | (w, _) :: r => trivial_prefix r k (sum + w) (S i) end
  else Ok None.
(** lib/data/skew-list.scm:345-375  special-prefix: both parts, [None] for #f; no matching
    clause is an error *)
Definition special_prefix (sl : skew) (k : Z) : res (option (skew * skew)) :=
  let from_node :=
    match sl with
    | (n, Node x (Node y t11 t12) t2) :: zs =>
        let t1 := Node y t11 t12 in
        if k =? 1 then Ok (Some ([(1, Leaf x)], (half n, t1) :: (half n, t2) :: zs))
        else if k =? 2 then Ok (Some ([(1, Leaf x); (1, Leaf y)], (quarter n, t11) :: (quarter n, t12) :: (half n, t2) :: zs))
        else if k =? 1 + half n then Ok (Some ([(1, Leaf x); (half n, t1)], (half n, t2) :: zs))
        else if (3 <? k) && (k =? 2 + quarter n)
             then Ok (Some ([(1, Leaf x); (1, Leaf y); (quarter n, t11)], (quarter n, t12) :: (half n, t2) :: zs))
        else Ok None
    | (n, Node x (Leaf y) t2) :: zs =>
        if k =? 1 then Ok (Some ([(1, Leaf x)], (1, Leaf y) :: (half n, t2) :: zs))
        else if k =? 2 then Ok (Some ([(1, Leaf x); (1, Leaf y)], (half n, t2) :: zs))
        else Ok None
    | _ => Err
    end in
  match sl with
  | (w, x) :: (n, Node y t1 t2) :: zs =>
      if w =? 1 then
        if k =? 2 then Ok (Some ([(1, x); (1, Leaf y)], (half n, t1) :: (half n, t2) :: zs))
        else if (3 <? n) && (k =? 2 + half n)
             then Ok (Some ([(1, x); (1, Leaf y); (half n, t1)], (half n, t2) :: zs))
        else Ok None
      else from_node
  | _ => from_node
  end.
Inductive rettype := Take | Drop | Split.
(** lib/data/skew-list.scm:330-387  %skew-list-splitter; take and drop answer with one of
    the two components *)
Definition splitter (sl : skew) (k : Z) (ret : rettype) : res (skew * skew) :=
  do tp <- trivial_prefix sl k 0 0;
  match tp with
  | Some i => Ok (firstn i sl, skipn i sl)
  | None =>
    do sp <- special_prefix sl k;
    match sp with
    | Some r => Ok r
    | None =>
      match ret with
      | Take => do l <- skew_to_lseq sl 0 (Some k); do t <- list_to_skew l; Ok (t, [])
      | Drop => do l <- skew_to_lseq sl k None; do t <- list_to_skew l; Ok ([], t)
      | Split => let l := skew_to_list sl in
                 (* split-at *)
                 if (k <? 0) || (Z.of_nat (length l) <? k) then Err
                 else do t <- list_to_skew (firstn (Z.to_nat k) l);
                      do d <- list_to_skew (skipn (Z.to_nat k) l);
                      Ok (t, d)
      end
    end
  end.
Definition skew_take (sl : skew) (k : Z) : res skew := do r <- splitter sl k Take; Ok (fst r).
Definition skew_drop (sl : skew) (k : Z) : res skew := do r <- splitter sl k Drop; Ok (snd r).
Definition skew_split_at (sl : skew) (k : Z) : res (skew * skew) := splitter sl k Split.

(** lib/data/skew-list.scm:401-416  %skew-list-append2 *)
Definition slow_append (sl1 sl2 : skew) : res skew := list_to_skew (skew_to_list sl1 ++ skew_to_list sl2).
Definition skew_append2 (sl1 sl2 : skew) : res skew :=
  match sl1 with
  | [(w, Leaf x)] =>
      if w =? 1 then Ok (skew_cons x sl2)
      else match sl2 with
           | [] => Err
           | (w1, _) :: _ => if w =? w1 then Ok ((w, Leaf x) :: sl2) else slow_append sl1 sl2
           end
  | [(w0, t0)] =>
      match sl2 with
      | [] => Err
      | (w1, _) :: _ => if w0 =? w1 then Ok ((w0, t0) :: sl2) else slow_append sl1 sl2
      end
  | [] => Err
  | _ => let wz := last (map fst sl1) 0 in
      match sl2 with
      | [] => Err
      | (w1, _) :: _ => if wz <? w1 then Ok (sl1 ++ sl2) else slow_append sl1 sl2
      end
  end.
(** lib/data/skew-list.scm:394-398  skew-list-append *)
Fixpoint skew_append (sl : skew) (sls : list skew) : res skew :=
  match sls with
  | [] => Ok sl
  | s :: r => match sl with
              | [] => skew_append s r
              | _ => do t <- skew_append s r; skew_append2 sl t
              end
  end.
End Skew.
Arguments skew : clear implicits.

(** lib/data/skew-list.scm:241-246  skew-list-map *)
Fixpoint tree_map {A B} (f : A -> B) (t : stree A) : stree B :=
  match t with
  | Leaf x => Leaf (f x)
  | Node x t0 t1 => Node (f x) (tree_map f t0) (tree_map f t1)
  end.
Definition skew_map {A B} (sl : skew A) (f : A -> B) : skew B := map (fun p => (fst p, tree_map f (snd p))) sl.
