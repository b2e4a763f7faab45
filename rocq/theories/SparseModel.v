(** Compact tries of ext/sparse/ctrie.c and ctrie.h (64-bit u_long).
    Leaves live in a heap (a list of leaves; a Leaf* is a position in it) because the
    callers keep and write through the Leaf* they get; nodes are owned by one parent
    only, so a Node* is represented by the node itself and writing to it by returning
    the new node.  Reading or writing outside an array, a wrong union member, and a
    shift by 64 or more are UB.  In the recursive functions [f] is the number of levels
    left: level = 13 - f, and KEY2INDEX at level 13 would shift a 64-bit word by 65. *)
From Coq Require Import ZArith List Bool Arith.
From Verif Require Import Outcome BitsModel.
Import ListNotations.
Local Open Scope Z_scope.

(** array cells, with bounds check *)
Definition aget {A} (l : list A) (i : nat) : res A := of_opt (nth_error l i).
Definition aset {A} (l : list A) (i : nat) (x : A) : res (list A) :=
  if (i <? length l)%nat then Ok (firstn i l ++ x :: skipn (S i) l) else UB.

(** ** Leaves: ctrie.h:85-136 *)
Section Leaf.
Context {P : Type}.
(** ctrie.h:85-88 struct LeafRec, with the application's part [body] *)
Record leaf := mkLeaf { key0 : Z; key1 : Z; body : P }.
Definition LEAF_KEY_BITS : Z := 32.
Definition LEAF_KEY_MASK : Z := 2 ^ 32 - 1.
(** ctrie.h:102-106 leaf_key *)
Definition leaf_key (l : leaf) : Z :=
  (Z.shiftl (Z.land (key1 l) LEAF_KEY_MASK) LEAF_KEY_BITS + Z.land (key0 l) LEAF_KEY_MASK) mod 2 ^ 64.
(** ctrie.h:108-112 leaf_key_set *)
Definition leaf_key_set (l : leaf) (key : Z) : leaf :=
  mkLeaf (Z.land key LEAF_KEY_MASK) (Z.land (Z.shiftr key LEAF_KEY_BITS) LEAF_KEY_MASK) (body l).
(** ctrie.h:114-117 leaf_data *)
Definition leaf_data (l : leaf) : Z := Z.shiftr (key0 l) LEAF_KEY_BITS.
(** ctrie.h:124-127 leaf_data_bit_test *)
Definition leaf_data_bit_test (l : leaf) (bit : nat) : bool := test_in_word (key0 l) (bit + 32).
(** ctrie.h:129-132 leaf_data_bit_set *)
Definition leaf_data_bit_set (l : leaf) (bit : nat) : leaf := mkLeaf (set_in_word (key0 l) (bit + 32)) (key1 l) (body l).
(** ctrie.h:134-137 leaf_data_bit_reset *)
Definition leaf_data_bit_reset (l : leaf) (bit : nat) : leaf := mkLeaf (reset_in_word (key0 l) (bit + 32)) (key1 l) (body l).
Definition set_body (l : leaf) (b : P) : leaf := mkLeaf (key0 l) (key1 l) b.
End Leaf.
Arguments leaf P : clear implicits.

(** ** Nodes: ctrie.h:69-77, ctrie.c:53-130 *)
(** ctrie.h:73-77 struct NodeRec; an entry is a void*: NULL, a Leaf* or a Node* *)
Inductive node := Node (emap lmap : Z) (ents : list entry)
with entry := ENull | ELeaf (a : nat) | ENode (n : node).
Definition emap (n : node) := match n with Node e _ _ => e end.
Definition lmap (n : node) := match n with Node _ l _ => l end.
Definition ents (n : node) := match n with Node _ _ s => s end.

Definition TRIE_SHIFT : Z := 5.
Definition TRIE_MASK : Z := 31.
Definition MAX_NODE_SIZE : nat := 32.
Definition LEVELS : nat := 13.
(** ctrie.c:56 KEY2INDEX; only evaluated for level < 13 *)
Definition key2index (key : Z) (level : nat) : nat := Z.to_nat (Z.land (Z.shiftr key (Z.of_nat level * TRIE_SHIFT)) TRIE_MASK).
(** ctrie.c:58-72 *)
Definition node_has_arc (n : node) (i : nat) : bool := test_in_word (emap n) i.
Definition node_arc_is_leaf (n : node) (i : nat) : bool := test_in_word (lmap n) i.
Definition node_nchildren (n : node) : nat := Z.to_nat (count_bits (emap n)).
(** src/gauche/bits_inline.h:67-71 Scm__CountBitsBelow *)
Definition count_below (w : Z) (i : nat) : nat := Z.to_nat (count_bits (Z.land w (low_mask i))).
Definition node_index2off (n : node) (i : nat) : nat := count_below (emap n) i.
Definition node_entry (n : node) (off : nat) : res entry := aget (ents n) off.
Definition node_entry_set (n : node) (off : nat) (e : entry) : res node :=
  do s <- aset (ents n) off e; Ok (Node (emap n) (lmap n) s).
Definition node_arc_set (n : node) (i : nat) : node := Node (set_in_word (emap n) i) (lmap n) (ents n).
Definition node_leaf_set (n : node) (i : nat) : node := Node (emap n) (set_in_word (lmap n) i) (ents n).
Definition node_arc_reset (n : node) (i : nat) : node := Node (reset_in_word (emap n) i) (lmap n) (ents n).
Definition node_leaf_reset (n : node) (i : nat) : node := Node (emap n) (reset_in_word (lmap n) i) (ents n).

Definition NODE_SIZE_INCR : nat := 2.
(** ctrie.c:79-84 make_node: (nentry+1) & ~1 zeroed entries *)
Definition make_node (nentry : nat) : node := Node 0 0 (repeat ENull (2 * ((nentry + NODE_SIZE_INCR - 1) / 2))).

(** ctrie.c:95-99 for (i=size-1; i>=insertpoint; i--) entries[i+1] = entries[i];
    [c] = number of entries still to move *)
Fixpoint shift_up (c : nat) (ip : nat) (s : list entry) : res (list entry) :=
  match c with
  | O => Ok s
  | S c' => do e <- aget s (ip + c'); do s1 <- aset s (ip + c' + 1) e; shift_up c' ip s1
  end.
(** ctrie.c:111-113 for (; i<end; i++) dst[i+d] = src[i]; [c] = end - i *)
Fixpoint copy_ents (c : nat) (i d : nat) (src dst : list entry) : res (list entry) :=
  match c with
  | O => Ok dst
  | S c' => do e <- aget src i; do dst1 <- aset dst (i + d) e; copy_ents c' (S i) d src dst1
  end.
(** ctrie.c:86-116 node_insert *)
Definition node_insert (orig : node) (ind : nat) (e : entry) (leafp : bool) : res node :=
  let size := node_nchildren orig in
  let ip := count_below (emap orig) ind in
  if Nat.odd size then
    let n1 := node_arc_set orig ind in
    let n2 := if leafp then node_leaf_set n1 ind else n1 in
    do s1 <- (if (ip <? size)%nat then shift_up (size - ip) ip (ents n2) else Ok (ents n2));
    do s2 <- aset s1 ip e;
    Ok (Node (emap n2) (lmap n2) s2)
  else
    let new := make_node (size + NODE_SIZE_INCR) in
    let n1 := node_arc_set (Node (emap orig) (lmap orig) (ents new)) ind in
    let n2 := if leafp then node_leaf_set n1 ind else n1 in
    do s1 <- copy_ents ip 0 0 (ents orig) (ents n2);
    do s2 <- aset s1 ip e;
    do s3 <- copy_ents (size - ip) ip 1 (ents orig) s2;
    Ok (Node (emap n2) (lmap n2) s3).
(** ctrie.c:126-128 for (i=deletepoint; i<size-1; i++) entries[i] = entries[i+1] *)
Fixpoint shift_down (c : nat) (i : nat) (s : list entry) : res (list entry) :=
  match c with
  | O => Ok s
  | S c' => do e <- aget s (i + 1); do s1 <- aset s i e; shift_down c' (S i) s1
  end.
(** ctrie.c:118-130 node_delete *)
Definition node_delete (orig : node) (ind : nat) : res (node * nat) :=
  let size := node_nchildren orig in
  let dp := count_below (emap orig) ind in
  let n1 := node_leaf_reset (node_arc_reset orig ind) ind in
  do s <- shift_down (size - 1 - dp) dp (ents n1);
  Ok (Node (emap n1) (lmap n1) s, (size - 1)%nat).

(** ** The trie: ctrie.c:132-541 *)
Section Trie.
Context {P : Type}.
Definition heap := list (leaf P).
Definition as_leaf (e : entry) : res nat := match e with ELeaf a => Ok a | _ => UB end.
Definition as_node (e : entry) : res node := match e with ENode n => Ok n | _ => UB end.

(** ctrie.c:136-141 new_leaf: creator(data), then leaf_key_set *)
Definition new_leaf (h : heap) (key : Z) (creator : leaf P) : heap * nat := (h ++ [leaf_key_set creator key], length h).

(** ctrie.c:146-158 get_rec *)
Fixpoint get_rec (f : nat) (h : heap) (n : node) (key : Z) (level : nat) : res (option nat) :=
  match f with
  | O => UB
  | S f' =>
    let ind := key2index key level in
    if negb (node_has_arc n ind) then Ok None
    else if node_arc_is_leaf n ind then
      do e <- node_entry n (node_index2off n ind);
      do a <- as_leaf e;
      do l <- aget h a;
      Ok (if leaf_key l =? key then Some a else None)
    else
      do e <- node_entry n (node_index2off n ind);
      do m <- as_node e;
      get_rec f' h m key (S level)
  end.

(** ctrie.h:142-145 struct CompactTrieRec; numEntries is a 32-bit u_int *)
Record ctrie := mkTrie { ct_num : Z; ct_root : option node }.
(** ctrie.c:47-51 CompactTrieInit *)
Definition ctrie_init : ctrie := mkTrie 0 None.
(** ctrie.c:160-165 CompactTrieGet *)
Definition ctrie_get (h : heap) (ct : ctrie) (key : Z) : res (option nat) :=
  match ct_root ct with None => Ok None | Some r => get_rec LEVELS h r key 0 end.

(** ctrie.c:170-204 add_rec: the heap, the new node, *result and ct->numEntries *)
Fixpoint add_rec (f : nat) (h : heap) (num : Z) (n : node) (key : Z) (level : nat) (creator : leaf P)
  : res (heap * Z * node * nat) :=
  match f with
  | O => UB
  | S f' =>
    let ind := key2index key level in
    if negb (node_has_arc n ind) then
      let '(h1, a) := new_leaf h key creator in
      do n1 <- node_insert n ind (ELeaf a) true;
      Ok (h1, (num + 1) mod 2 ^ 32, n1, a)
    else if negb (node_arc_is_leaf n ind) then
      let off := node_index2off n ind in
      do e <- node_entry n off;
      do orig <- as_node e;
      do r <- add_rec f' h num orig key (S level) creator;
      let '(h1, num1, m, a) := r in
      do n1 <- node_entry_set n off (ENode m);
      Ok (h1, num1, n1, a)
    else
      let off := node_index2off n ind in
      do e <- node_entry n off;
      do a0 <- as_leaf e;
      do l0 <- aget h a0;
      if key =? leaf_key l0 then Ok (h, num, n, a0)
      else
        (* the shift by (level+1)*TRIE_SHIFT *)
        match f' with
        | O => UB
        | S _ =>
          let i0 := key2index (leaf_key l0) (S level) in
          let m0 := node_leaf_set (node_arc_set (make_node NODE_SIZE_INCR) i0) i0 in
          do m1 <- node_entry_set m0 0 (ELeaf a0);
          do r <- add_rec f' h num m1 key (S level) creator;
          let '(h1, num1, m, a) := r in
          do n1 <- node_entry_set n off (ENode m);
          Ok (h1, num1, node_leaf_reset n1 ind, a)
        end
  end.
(** ctrie.c:206-224 CompactTrieAdd *)
Definition ctrie_add (h : heap) (ct : ctrie) (key : Z) (creator : leaf P) : res (heap * ctrie * nat) :=
  match ct_root ct with
  | None =>
    let '(h1, a) := new_leaf h key creator in
    let i := Z.to_nat (Z.land key TRIE_MASK) in
    do n <- node_entry_set (node_leaf_set (node_arc_set (make_node NODE_SIZE_INCR) i) i) 0 (ELeaf a);
    Ok (h1, mkTrie 1 (Some n), a)
  | Some r =>
    do x <- add_rec LEVELS h (ct_num ct) r key 0 creator;
    let '(h1, num, n, a) := x in Ok (h1, mkTrie num (Some n), a)
  end.

(** ctrie.c:235-271 del_rec: the void* result (NULL, leaf or node), ct->numEntries and
    *deleted_leaf.  "m != orig" holds exactly when m is not a node. *)
Fixpoint del_rec (f : nat) (h : heap) (num : Z) (n : node) (key : Z) (level : nat) : res (entry * Z * option nat) :=
  match f with
  | O => UB
  | S f' =>
    let ind := key2index key level in
    if node_has_arc n ind then
      let off := node_index2off n ind in
      if negb (node_arc_is_leaf n ind) then
        do e <- node_entry n off;
        do orig <- as_node e;
        do r <- del_rec f' h num orig key (S level);
        let '(m, num1, del) := r in
        match m with
        | ENode m' => do n1 <- node_entry_set n off (ENode m'); Ok (ENode n1, num1, del)
        | _ =>
          if (node_nchildren n =? 1)%nat && (0 <? level)%nat then Ok (m, num1, del)
          else do n1 <- node_entry_set n off m; Ok (ENode (node_leaf_set n1 ind), num1, del)
        end
      else
        do e <- node_entry n off;
        do a0 <- as_leaf e;
        do l0 <- aget h a0;
        if key =? leaf_key l0 then
          do r <- node_delete n ind;
          let '(n1, nc) := r in
          let num1 := (num - 1) mod 2 ^ 32 in
          if (nc =? 1)%nat && negb (lmap n1 =? 0) && (0 <? level)%nat then
            do e1 <- node_entry n1 0; Ok (e1, num1, Some a0)
          else if (nc =? 0)%nat then
            assert (level =? 0)%nat (Ok (ENull, num1, Some a0))
          else Ok (ENode n1, num1, Some a0)
        else Ok (ENode n, num, None)
    else Ok (ENode n, num, None)
  end.
(** ctrie.c:273-280 CompactTrieDelete *)
Definition ctrie_delete (h : heap) (ct : ctrie) (key : Z) : res (ctrie * option nat) :=
  match ct_root ct with
  | None => Ok (ct, None)
  | Some r =>
    do x <- del_rec LEVELS h (ct_num ct) r key 0;
    let '(m, num, del) := x in
    match m with
    | ENode n => Ok (mkTrie num (Some n), del)
    | ENull => Ok (mkTrie num None, del)
    | ELeaf _ => UB
    end
  end.

(** ctrie.c:284-303 clear_rec: only its effect on the leaves; the nodes are garbage *)
Fixpoint clear_rec (f : nat) (h : heap) (n : node) (clearer : leaf P -> leaf P) : res heap :=
  match f with
  | O => UB
  | S f' =>
    (fix loop (c i off : nat) (h : heap) : res heap :=
       match c with
       | O => Ok h
       | S c' =>
         if node_has_arc n i then
           do e <- node_entry n off;
           do h1 <- (if node_arc_is_leaf n i then
                       do a <- as_leaf e; do l <- aget h a; aset h a (clearer l)
                     else do m <- as_node e; clear_rec f' h m clearer);
           loop c' (S i) (S off) h1
         else loop c' (S i) off h
       end) MAX_NODE_SIZE 0%nat 0%nat h
  end.
(** ctrie.c:305-313 CompactTrieClear *)
Definition ctrie_clear (h : heap) (ct : ctrie) (clearer : leaf P -> leaf P) : res (heap * ctrie) :=
  match ct_root ct with
  | None => Ok (h, mkTrie 0 None)
  | Some n => do h1 <- clear_rec LEVELS h n clearer; Ok (h1, mkTrie 0 None)
  end.

(** ctrie.c:318-334 next_rec *)
Fixpoint next_rec (f : nat) (n : node) (key : Z) (level : nat) (over : bool) : res (option nat) :=
  match f with
  | O => UB
  | S f' =>
    let ind := if over then 0%nat else key2index key level in
    (fix loop (c i : nat) : res (option nat) :=
       match c with
       | O => Ok None
       | S c' =>
         if negb (node_has_arc n i) then loop c' (S i)
         else if node_arc_is_leaf n i then
           if negb over && (i =? ind)%nat then loop c' (S i)
           else do e <- node_entry n (node_index2off n i); do a <- as_leaf e; Ok (Some a)
         else
           do e <- node_entry n (node_index2off n i);
           do m <- as_node e;
           do r <- next_rec f' m key (S level) (over || (ind <? i)%nat);
           match r with Some a => Ok (Some a) | None => loop c' (S i) end
       end) (MAX_NODE_SIZE - ind)%nat ind
  end.
(** ctrie.c:336-341 CompactTrieNextLeaf *)
Definition ctrie_next_leaf (ct : ctrie) (key : Z) : res (option nat) :=
  match ct_root ct with Some r => next_rec LEVELS r key 0 false | None => Ok None end.
(** ctrie.c:348-358 first_rec *)
Fixpoint first_rec (f : nat) (n : node) : res (option nat) :=
  match f with
  | O => UB
  | S f' =>
    if emap n =? 0 then Ok None
    else
      let minkey := lowest (emap n) in
      do e <- node_entry n (node_index2off n minkey);
      if node_arc_is_leaf n minkey then do a <- as_leaf e; Ok (Some a)
      else do m <- as_node e; first_rec f' m
  end.
(** ctrie.c:360-364 CompactTrieFirstLeaf *)
Definition ctrie_first_leaf (ct : ctrie) : res (option nat) :=
  match ct_root ct with Some r => first_rec LEVELS r | None => Ok None end.
(** ctrie.c:366-375 last_rec *)
Fixpoint last_rec (f : nat) (n : node) : res (option nat) :=
  match f with
  | O => UB
  | S f' =>
    if emap n =? 0 then Ok None
    else
      let maxkey := highest (emap n) in
      do e <- node_entry n (node_index2off n maxkey);
      if node_arc_is_leaf n maxkey then do a <- as_leaf e; Ok (Some a)
      else do m <- as_node e; last_rec f' m
  end.
(** ctrie.c:377-381 CompactTrieLastLeaf *)
Definition ctrie_last_leaf (ct : ctrie) : res (option nat) :=
  match ct_root ct with Some r => last_rec LEVELS r | None => Ok None end.

(** ctrie.c:389-405 copy_rec; copy(leaf) allocates a leaf *)
Fixpoint copy_rec (f : nat) (h : heap) (s : node) (copy : leaf P -> leaf P) : res (heap * node) :=
  match f with
  | O => UB
  | S f' =>
    let size := node_nchildren s in
    let d := make_node size in
    do r <- (fix loop (c i off : nat) (h : heap) (dst : list entry) : res (heap * list entry) :=
       match c with
       | O => Ok (h, dst)
       | S c' =>
         if (off <? size)%nat then
           if negb (node_has_arc s i) then loop c' (S i) off h dst
           else
             do e <- node_entry s off;
             do x <- (if node_arc_is_leaf s i then
                        do a <- as_leaf e; do l <- aget h a; Ok (h ++ [copy l], ELeaf (length h))
                      else do m <- as_node e; do y <- copy_rec f' h m copy; Ok (fst y, ENode (snd y)));
             do dst1 <- aset dst off (snd x);
             loop c' (S i) (S off) (fst x) dst1
         else Ok (h, dst)
       end) MAX_NODE_SIZE 0%nat 0%nat h (ents d);
    Ok (fst r, Node (emap s) (lmap s) (snd r))
  end.
(** ctrie.c:407-413 CompactTrieCopy *)
Definition ctrie_copy (h : heap) (src : ctrie) (copy : leaf P -> leaf P) : res (heap * ctrie) :=
  match ct_root src with
  | None => Ok (h, mkTrie (ct_num src) None)
  | Some r => do x <- copy_rec LEVELS h r copy; Ok (fst x, mkTrie (ct_num src) (Some (snd x)))
  end.

(** ctrie.h:147-152 struct CompactTrieIterRec (the trie is passed explicitly) *)
Record ctiter := mkIter { it_key : Z; it_begin : bool; it_end : bool }.
(** ctrie.c:418-424 CompactTrieIterInit *)
Definition ctiter_init : ctiter := mkIter 0 true false.
(** ctrie.c:426-439 CompactTrieIterNext *)
Definition ctiter_next (h : heap) (ct : ctrie) (it : ctiter) : res (ctiter * option nat) :=
  if it_end it then Ok (it, None)
  else
    do l <- (if it_begin it then ctrie_first_leaf ct else ctrie_next_leaf ct (it_key it));
    match l with
    | Some a => do lf <- aget h a; Ok (mkIter (leaf_key lf) false false, Some a)
    | None => Ok (mkIter (it_key it) false true, None)
    end.

(** ctrie.c:500-524 check_rec: the number of leaves; Err = Scm_Error *)
Fixpoint check_rec (f : nat) (n : node) (level : nat) : res Z :=
  match f with
  | O => UB
  | S f' =>
    (fix loop (c i off : nat) (direct : nat) (total : Z) : res Z :=
       match c with
       | O =>
         if (off =? 0)%nat then Err
         else if (off =? 1)%nat && (direct =? 1)%nat && (0 <? level)%nat then Err
         else Ok total
       | S c' =>
         if node_has_arc n i then
           if node_arc_is_leaf n i then loop c' (S i) (S off) (S direct) ((total + 1) mod 2 ^ 32)
           else do e <- node_entry n off; do m <- as_node e; do t <- check_rec f' m (S level);
                loop c' (S i) (S off) direct ((total + t) mod 2 ^ 32)
         else loop c' (S i) off direct total
       end) MAX_NODE_SIZE 0%nat 0%nat 0%nat 0
  end.
(** ctrie.c:526-541 CompactTrieCheck *)
Definition ctrie_check (ct : ctrie) : res unit :=
  match ct_root ct with
  | None => if ct_num ct =? 0 then Ok tt else Err
  | Some r => do t <- check_rec LEVELS r 0; if ct_num ct =? t then Ok tt else Err
  end.
End Trie.
Arguments heap P : clear implicits.
