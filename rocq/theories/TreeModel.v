(** Red-black tree of src/treemap.c, functional (zipper) layer.

    A node pointer together with its chain of [parent] pointers is a zipper: the
    subtree below the node and the path up to the root.  Node identity (the
    address of the C struct) is kept as the [id] field, because iterators and
    callers hold on to node pointers across rebalancing.  [TreeHeapModel.v] is the
    pointer-level layer that is proved to refine this one.

    Simplification: the value slot is an [option V], [None] standing for the 0
    stored by new_node until the caller sets it. *)
From Coq Require Import List Bool ZArith.
From Verif Require Import Outcome.
Import ListNotations.

Inductive color := Red | Black.

Section Tree.
Context {K V : Type}.
(** [tc->cmp(tc, e->key, key)]; the sign of the int decides. *)
Variable cmp : K -> K -> Z.

(** src/treemap.c:42-51  Node *)
Inductive tree :=
| E
| T (c : color) (l : tree) (i : nat) (k : K) (v : option V) (r : tree).

(** The chain of parents.  [PL c i k v r up]: the focus is the left child of node
    [i], whose right child is [r]; [PR] symmetrically. *)
Inductive path :=
| Top
| PL (c : color) (i : nat) (k : K) (v : option V) (r : tree) (up : path)
| PR (c : color) (l : tree) (i : nat) (k : K) (v : option V) (up : path).

Definition entry : Type := nat * K * option V.

(** src/treemap.c:62-64  BLACKP / REDP (NULL is black) *)
Definition blackp (t : tree) : bool := match t with T Red _ _ _ _ _ => false | _ => true end.
Definition redp (t : tree) : bool := match t with T Red _ _ _ _ _ => true | _ => false end.
Definition isred (c : color) : bool := match c with Red => true | Black => false end.
Definition isblack (c : color) : bool := negb (isred c).

(** src/treemap.c:66  PAINT *)
Definition paint (c : color) (t : tree) : tree :=
  match t with E => E | T _ l i k v r => T c l i k v r end.

(** Following [parent] pointers (src/treemap.c:46) up to the root. *)
Fixpoint zip (t : tree) (p : path) : tree :=
  match p with
  | Top => t
  | PL c i k v r up => zip (T c t i k v r) up
  | PR c l i k v up => zip (T c l i k v t) up
  end.

(** src/treemap.c:555-594  balance_tree, at node n = (nl,ni,nk,nv,nr) coloured
    [nc] with parents [p].  The result is the tree at the root.
    Case 1 root; 2 black parent; 3 red uncle; 4a/4b inner child; 5a/5b outer. *)
Fixpoint balance_tree (nc : color) (nl : tree) (ni : nat) (nk : K) (nv : option V) (nr : tree)
         (p : path) {struct p} : res tree :=
  match p with
  | Top => Ok (T Black nl ni nk nv nr)                                  (* 1 *)
  | PL Black _ _ _ _ _ | PR Black _ _ _ _ _ => Ok (zip (T nc nl ni nk nv nr) p)   (* 2 *)
  | PL Red pi pk pv pr up =>            (* n == p->left *)
    match up with
    | Top => Panic                      (* SCM_ASSERT(g != NULL) *)
    | PL _ gi gk gv u up2 =>            (* p == g->left *)
      if redp u then
        balance_tree Red (T Black (T nc nl ni nk nv nr) pi pk pv pr) gi gk gv (paint Black u) up2  (* 3 *)
      else                              (* 5a: rotate_right(g) *)
        Ok (zip (T Black (T nc nl ni nk nv nr) pi pk pv (T Red pr gi gk gv u)) up2)
    | PR _ u gi gk gv up2 =>            (* p == g->right *)
      if redp u then
        balance_tree Red (paint Black u) gi gk gv (T Black (T nc nl ni nk nv nr) pi pk pv pr) up2  (* 3 *)
      else                              (* 4b: rotate_right(p); 5b: rotate_left(g) *)
        Ok (zip (T Black (T Red u gi gk gv nl) ni nk nv (T Red nr pi pk pv pr)) up2)
    end
  | PR Red pl pi pk pv up =>            (* n == p->right *)
    match up with
    | Top => Panic
    | PL _ gi gk gv u up2 =>            (* p == g->left *)
      if redp u then
        balance_tree Red (T Black pl pi pk pv (T nc nl ni nk nv nr)) gi gk gv (paint Black u) up2  (* 3 *)
      else                              (* 4a: rotate_left(p); 5a: rotate_right(g) *)
        Ok (zip (T Black (T Red pl pi pk pv nl) ni nk nv (T Red nr gi gk gv u)) up2)
    | PR _ u gi gk gv up2 =>            (* p == g->right *)
      if redp u then
        balance_tree Red (paint Black u) gi gk gv (T Black pl pi pk pv (T nc nl ni nk nv nr)) up2  (* 3 *)
      else                              (* 5b: rotate_left(g) *)
        Ok (zip (T Black (T Red u gi gk gv pl) pi pk pv (T nc nl ni nk nv nr)) up2)
    end
  end.

(** Outcome of one round of the [recur:] loop of delete_node1. *)
Inductive round := Done (t : tree) | Recur (child : tree) (up : path).

(** src/treemap.c:636-677, cases 5-8 when CHILD is the left child of PARENT. *)
Definition del_round_L (child : tree) (pc : color) (pi : nat) (pk : K) (pv : option V)
           (s : tree) (up : path) : res round :=
  match s with
  | E => UB                                   (* sibling->left with sibling == NULL *)
  | T sc sl si sk sv sr =>
    if isblack pc && blackp sl && blackp sr then                          (* 5 *)
      Ok (Recur (T pc child pi pk pv (T Red sl si sk sv sr)) up)
    else if isred pc && blackp sl && blackp sr then                       (* 6 *)
      Ok (Done (zip (T Black child pi pk pv (T Red sl si sk sv sr)) up))
    else
      let s' := match sl with                                             (* 7a *)
                | T Red a xi xk xv b =>
                  if blackp sr then T Black a xi xk xv (T Red b si sk sv sr) else s
                | _ => s
                end in
      match s' with
      | E => UB
      | T _ sl' si' sk' sv' sr' =>
        match sr' with
        | E => UB                             (* sibling->right->color with NULL *)
        | T _ _ _ _ _ _ =>                                                (* 8a *)
          Ok (Done (zip (T pc (T Black child pi pk pv sl') si' sk' sv' (paint Black sr')) up))
        end
      end
  end.

(** src/treemap.c:636-677, cases 5-8 when CHILD is the right child of PARENT. *)
Definition del_round_R (child : tree) (pc : color) (pi : nat) (pk : K) (pv : option V)
           (s : tree) (up : path) : res round :=
  match s with
  | E => UB
  | T sc sl si sk sv sr =>
    if isblack pc && blackp sl && blackp sr then                          (* 5 *)
      Ok (Recur (T pc (T Red sl si sk sv sr) pi pk pv child) up)
    else if isred pc && blackp sl && blackp sr then                       (* 6 *)
      Ok (Done (zip (T Black (T Red sl si sk sv sr) pi pk pv child) up))
    else
      let s' := match sr with                                             (* 7b *)
                | T Red a xi xk xv b =>
                  if blackp sl then T Black (T Red sl si sk sv a) xi xk xv b else s
                | _ => s
                end in
      match s' with
      | E => UB
      | T _ sl' si' sk' sv' sr' =>
        match sl' with
        | E => UB
        | T _ _ _ _ _ _ =>                                                (* 8b *)
          Ok (Done (zip (T pc (paint Black sl') si' sk' sv' (T Black sr' pi pk pv child)) up))
        end
      end
  end.

(** src/treemap.c:616-677  the [recur:] loop of delete_node1.  When the sibling is
    red (4a/4b) PARENT becomes red and is rotated below it, so case 5 cannot apply
    in the same round and the loop ends; that impossible continuation is [UB]. *)
Fixpoint del_recur (child : tree) (p : path) : res tree :=
  match p with
  | Top => Ok child                                                       (* 3 *)
  | PL pc pi pk pv s up =>
    match s with
    | E => Panic                              (* SCM_ASSERT(sibling != NULL) *)
    | T Red sl si sk sv sr =>                                             (* 4a *)
      do r <- del_round_L child Red pi pk pv sl (PL Black si sk sv sr up);
      match r with Done t => Ok t | Recur _ _ => UB end
    | T Black _ _ _ _ _ =>
      do r <- del_round_L child pc pi pk pv s up;
      match r with Done t => Ok t | Recur c' _ => del_recur c' up end
    end
  | PR pc s pi pk pv up =>
    match s with
    | E => Panic
    | T Red sl si sk sv sr =>                                             (* 4b *)
      do r <- del_round_R child Red pi pk pv sr (PR Black sl si sk sv up);
      match r with Done t => Ok t | Recur _ _ => UB end
    | T Black _ _ _ _ _ =>
      do r <- del_round_R child pc pi pk pv s up;
      match r with Done t => Ok t | Recur c' _ => del_recur c' up end
    end
  end.

(** src/treemap.c:604-615  delete_node1(todie, child): cases 1 and 2 *)
Definition delete_node1 (todie_color : color) (child : tree) (p : path) : res tree :=
  if isred todie_color then Ok (zip child p)                              (* 1 *)
  else if redp child then Ok (zip (paint Black child) p)                  (* 2 *)
  else del_recur child p.

(** src/treemap.c:439-443 rightmost / 445-449 leftmost, with the path taken *)
Fixpoint rightmost (c : color) (l : tree) (i : nat) (k : K) (v : option V) (r : tree) (p : path)
  : color * tree * nat * K * option V * path :=
  match r with
  | E => (c, l, i, k, v, p)
  | T c' l' i' k' v' r' => rightmost c' l' i' k' v' r' (PR c l i k v p)
  end.
Fixpoint leftmost (c : color) (l : tree) (i : nat) (k : K) (v : option V) (r : tree) (p : path)
  : color * tree * nat * K * option V * path :=
  match l with
  | E => (c, r, i, k, v, p)
  | T c' l' i' k' v' r' => leftmost c' l' i' k' v' r' (PL c i k v r p)
  end.

(** Appending a path segment below another: [q] relative to a node whose own path
    is [p]. *)
Fixpoint path_app (q p : path) : path :=
  match q with
  | Top => p
  | PL c i k v r up => PL c i k v r (path_app up p)
  | PR c l i k v up => PR c l i k v (path_app up p)
  end.

(** src/treemap.c:708-726  delete_node.  With two children the node is swapped
    with its in-order predecessor [y] = rightmost(left) (swap_node, 679-706: the
    two nodes exchange positions and colours), after which it has no right child.
    swap_node is done once: [y] has no right child. *)
Definition delete_node (c : color) (l : tree) (i : nat) (k : K) (v : option V) (r : tree) (p : path)
  : res tree :=
  match l, r with
  | T lc ll li lk lv lr, T _ _ _ _ _ _ =>
    let '(yc, yl, yi, yk, yv, q) := rightmost lc ll li lk lv lr Top in
    (* y now stands where n was, with n's colour; n stands where y was, with y's
       colour and y's only child yl *)
    delete_node1 yc yl (path_app q (PL c yi yk yv r p))
  | T _ _ _ _ _ _, E => delete_node1 c l p
  | E, _ => delete_node1 c r p
  end.

(** src/treemap.c:729-807  core_ref: the descent *)
Inductive found :=
| Hit (c : color) (l : tree) (i : nat) (k : K) (v : option V) (r : tree) (p : path)
| Miss (p : path).

Fixpoint descend (key : K) (t : tree) (p : path) : found :=
  match t with
  | E => Miss p
  | T c l i k v r =>
    let d := cmp k key in
    if (d =? 0)%Z then Hit c l i k v r p
    else if (d <? 0)%Z then descend key r (PR c l i k v p)
    else descend key l (PL c i k v r p)
  end.

(** src/treemap.c:452-471  prev_node / next_node: the climbing loops *)
Fixpoint climb_prev (p : path) : option entry :=
  match p with
  | Top => None
  | PR _ _ i k v _ => Some (i, k, v)       (* RIGHTP(n): return n->parent *)
  | PL _ _ _ _ _ up => climb_prev up
  end.
Fixpoint climb_next (p : path) : option entry :=
  match p with
  | Top => None
  | PL _ i k v _ _ => Some (i, k, v)       (* LEFTP(n): return n->parent *)
  | PR _ _ _ _ _ up => climb_next up
  end.
Definition prev_node (l : tree) (p : path) : option entry :=
  match l with
  | T c' l' i' k' v' r' => let '(_, _, i, k, v, _) := rightmost c' l' i' k' v' r' Top in Some (i, k, v)
  | E => climb_prev p
  end.
Definition next_node (r : tree) (p : path) : option entry :=
  match r with
  | T c' l' i' k' v' r' => let '(_, _, i, k, v, _) := leftmost c' l' i' k' v' r' Top in Some (i, k, v)
  | E => climb_next p
  end.

(** src/gauche/treemap.h ScmTreeCore; [fresh] is the allocator: the next unused node address. *)
Record core := mkcore { root : tree; num_entries : Z; fresh : nat }.

(** src/treemap.c:101-109  Scm_TreeCoreInit *)
Definition core_init : core := mkcore E 0 0.

(** src/treemap.c:729-766 core_ref with TREE_GET *)
Definition core_get (tc : core) (key : K) : option entry :=
  match descend key (root tc) Top with
  | Hit _ _ i k v _ _ => Some (i, k, v)
  | Miss _ => None
  end.

(** src/treemap.c:734-741,771-778,790-797 core_ref with TREE_CREATE: existing node, or a fresh red node hung at the miss position and
    rebalanced.  The INT_MAX check (CHECK_OVERFLOW) is the error branch. *)
Definition core_create (tc : core) (key : K) : res (core * entry) :=
  match descend key (root tc) Top with
  | Hit _ _ i k v _ _ => Ok (tc, (i, k, v))
  | Miss p =>
    if (num_entries tc =? 2147483647)%Z then Err
    else
      do t <- balance_tree Red E (fresh tc) key None E p;
      Ok (mkcore t (num_entries tc + 1) (S (fresh tc)), (fresh tc, key, None))
  end.

(** src/treemap.c:752-757 core_ref with TREE_DELETE *)
Definition core_delete (tc : core) (key : K) : res (core * option entry) :=
  match descend key (root tc) Top with
  | Hit c l i k v r p =>
    do t <- delete_node c l i k v r p;
    Ok (mkcore t (num_entries tc - 1) (fresh tc), Some (i, k, v))
  | Miss _ => Ok (tc, None)
  end.

(** src/treemap.c:742-744,758-761,779-783,798-802 core_ref with TREE_NEAR: (exact match, lo, hi) *)
Definition core_near (tc : core) (key : K) : option entry * option entry * option entry :=
  match descend key (root tc) Top with
  | Hit _ l i k v r p => (Some (i, k, v), prev_node l p, next_node r p)
  | Miss p =>
    match p with
    | Top => (None, None, None)
    | PR _ _ i k v up => (None, Some (i, k, v), climb_next up)   (* hung right of e: lo = e *)
    | PL _ i k v _ up => (None, climb_prev up, Some (i, k, v))   (* hung left of e: hi = e *)
    end
  end.

(** src/treemap.c:162-175  core_bound *)
Definition core_bound (tc : core) (min pop : bool) : res (core * option entry) :=
  match root tc with
  | E => Ok (tc, None)
  | T c l i k v r =>
    let '(nc, child, ni, nk, nv, p) :=
      if min then leftmost c l i k v r Top else rightmost c l i k v r Top in
    if pop then
      do t <- (if min then delete_node nc E ni nk nv child p else delete_node nc child ni nk nv E p);
      Ok (mkcore t (num_entries tc - 1) (fresh tc), Some (ni, nk, nv))
    else Ok (tc, Some (ni, nk, nv))
  end.

(** src/treemap.c:386-388 SCM_DICT_SET_VALUE(e, value): storing through the entry pointer, wherever the
    node is in the tree. *)
Fixpoint set_node_value (t : tree) (id : nat) (val : V) : tree :=
  match t with
  | E => E
  | T c l i k v r =>
    if Nat.eqb i id then T c l i k (Some val) r
    else T c (set_node_value l id val) i k v (set_node_value r id val)
  end.

(** src/treemap.c:379-390  Scm_TreeMapSet; None is SCM_UNBOUND.  Flags
    SCM_DICT_NO_CREATE and SCM_DICT_NO_OVERWRITE. *)
Definition treemap_set (tc : core) (key : K) (value : V) (no_create no_overwrite : bool)
  : res (core * option V) :=
  do ce <- (if no_create
            then match core_get tc key with
                 | Some e => Ok (tc, Some e)
                 | None => Ok (tc, None)
                 end
            else do r <- core_create tc key; Ok (fst r, Some (snd r)));
  match snd ce with
  | None => Ok (fst ce, None)
  | Some (i, _, old) =>
    let store := negb no_overwrite || (match old with None => true | Some _ => false end) in
    Ok (if store
        then mkcore (set_node_value (root (fst ce)) i value) (num_entries (fst ce)) (fresh (fst ce))
        else fst ce,
        old)
  end.

(** src/treemap.c:366-375  Scm_TreeMapRef; None stands for the fallback *)
Definition treemap_ref (tc : core) (key : K) : option V :=
  match core_get tc key with Some (_, _, v) => v | None => None end.

(** src/treemap.c:392-398  Scm_TreeMapDelete *)
Definition treemap_delete (tc : core) (key : K) : res (core * option V) :=
  do r <- core_delete tc key;
  Ok (fst r, match snd r with Some (_, _, v) => v | None => None end).

(** src/treemap.c:123-127  Scm_TreeCoreClear *)
Definition core_clear (tc : core) : core := mkcore E 0 (fresh tc).

(** src/treemap.c:810-818  copy_tree: fresh nodes, allocated in preorder *)
Fixpoint copy_tree (t : tree) (next : nat) : tree * nat :=
  match t with
  | E => (E, next)
  | T c l i k v r =>
    let (l', n1) := copy_tree l (S next) in
    let (r', n2) := copy_tree r n1 in
    (T c l' next k v r', n2)
  end.
Definition core_copy (tc : core) : core :=
  let (t, n) := copy_tree (root tc) (fresh tc) in mkcore t (num_entries tc) n.

(** src/treemap.c:285-324  check_traverse / Scm_TreeCoreCheckConsistency: [None]
    when an error would be raised, otherwise (black depth, node count). *)
Fixpoint check_traverse (t : tree) (depth : nat) : option (nat * Z) :=
  match t with
  | E => Some (depth, 0%Z)
  | T c l i k v r =>
    let depth := if isblack c then S depth else depth in
    if isred c && (redp l || redp r) then None
    else match check_traverse l depth, check_traverse r depth with
         | Some (ld, lc), Some (rd, rc) =>
           if Nat.eqb ld rd then Some (ld, lc + rc + 1)%Z else None
         | _, _ => None
         end
  end.
Definition check_consistency (tc : core) : bool :=
  blackp (root tc) &&
  match check_traverse (root tc) 1 with
  | Some (_, cnt) => Z.eqb cnt (num_entries tc)
  | None => false
  end.

(** The node with address [id], with its chain of parents: what dereferencing a
    retained [ScmDictEntry*] sees.  [Miss] when no node of the tree has that
    address (the node was deleted; clear_node has wiped its links). *)
Fixpoint locate (id : nat) (t : tree) (p : path) : found :=
  match t with
  | E => Miss p
  | T c l i k v r =>
    if Nat.eqb i id then Hit c l i k v r p
    else match locate id l (PL c i k v r p) with
         | Hit c' l' i' k' v' r' p' => Hit c' l' i' k' v' r' p'
         | Miss _ => locate id r (PR c l i k v p)
         end
  end.
Definition node_at (tc : core) (id : nat) : option entry :=
  match locate id (root tc) Top with Hit _ _ i k v _ _ => Some (i, k, v) | Miss _ => None end.

Definition entry_id (e : entry) : nat := fst (fst e).

(** src/treemap.c:491-495  node_cleared_p: all three links NULL.  Besides a
    deleted node this holds of the root of a one-node tree. *)
Definition node_cleared_p (tc : core) (n : option nat) : bool :=
  match n with
  | None => false
  | Some id => match locate id (root tc) Top with
               | Hit _ E _ _ _ E Top => true
               | Hit _ _ _ _ _ _ _ => false
               | Miss _ => true
               end
  end.

(** src/treemap.c:210-220  advance_iter, retrogress_iter *)
Definition advance_iter (tc : core) (n : option nat) : option nat :=
  match n with
  | None => None
  | Some id => match locate id (root tc) Top with
               | Hit _ _ _ _ _ r p => option_map entry_id (next_node r p)
               | Miss _ => None
               end
  end.
Definition retrogress_iter (tc : core) (n : option nat) : option nat :=
  match n with
  | None => None
  | Some id => match locate id (root tc) Top with
               | Hit _ l _ _ _ _ p => option_map entry_id (prev_node l p)
               | Miss _ => None
               end
  end.

(** src/gauche/treemap.h ScmTreeIter: current, next, previous nodes *)
Record iter := mkiter { it_c : option nat; it_n : option nat; it_p : option nat }.

Definition bound_id (tc : core) (min : bool) : option nat :=
  match root tc with
  | E => None
  | T c l i k v r =>
    let '(_, _, ni, _, _, _) :=
      if min then leftmost c l i k v r Top else rightmost c l i k v r Top in Some ni
  end.

(** src/treemap.c:225-240  Scm_TreeIterInit *)
Definition iter_init (tc : core) (start : option entry) : res iter :=
  match start with
  | None => Ok (mkiter None (bound_id tc true) (bound_id tc false))
  | Some (i, k, _) =>
    match core_get tc k with
    | Some (i', _, _) =>
      if Nat.eqb i i' then Ok (mkiter (Some i) (advance_iter tc (Some i)) (retrogress_iter tc (Some i)))
      else Err
    | None => Err
    end
  end.

(** src/treemap.c:243-255  Scm_TreeIterNext *)
Definition iter_next (tc : core) (it : iter) : iter :=
  let c := it_n it in
  if node_cleared_p tc (it_c it)
  then mkiter c (advance_iter tc c) (retrogress_iter tc c)
  else mkiter c (advance_iter tc c) (it_c it).

(** src/treemap.c:257-269  Scm_TreeIterPrev *)
Definition iter_prev (tc : core) (it : iter) : iter :=
  let c := it_p it in
  if node_cleared_p tc (it_c it)
  then mkiter c (advance_iter tc c) (retrogress_iter tc c)
  else mkiter c (it_c it) (retrogress_iter tc c).

(** src/libhash.scm:714-733  %tree-map-iter drained to the end: the entries
    delivered by calling Scm_TreeIterNext (Prev) until it returns NULL.  [None]
    if it has not returned NULL after [fuel] calls. *)
Fixpoint iter_drain (fuel : nat) (down : bool) (tc : core) (it : iter) : option (list entry) :=
  match fuel with
  | O => None
  | S f =>
    let it' := if down then iter_prev tc it else iter_next tc it in
    match it_c it' with
    | None => Some []
    | Some id => match node_at tc id, iter_drain f down tc it' with
                 | Some e, Some l => Some (e :: l)
                 | _, _ => None
                 end
    end
  end.

(** src/treemap.c:192-208  Scm_TreeCoreEq; [keqb]/[veqb] are the C [!=] on the
    key and value words.  [None] if the loop has not ended after [fuel] rounds. *)
Fixpoint core_eq_loop (keqb : K -> K -> bool) (veqb : option V -> option V -> bool) (fuel : nat)
         (a b : core) (ia ib : iter) : option bool :=
  match fuel with
  | O => None
  | S f =>
    let ia := iter_next a ia in
    let ib := iter_next b ib in
    match it_c ia, it_c ib with
    | None, None => Some true
    | None, Some _ => Some false
    | Some _, None => Some false
    | Some x, Some y =>
      match node_at a x, node_at b y with
      | Some (_, k1, v1), Some (_, k2, v2) =>
        if negb (keqb k1 k2) || negb (veqb v1 v2) then Some false
        else core_eq_loop keqb veqb f a b ia ib
      | _, _ => None
      end
    end
  end.
Definition core_eq (keqb : K -> K -> bool) (veqb : option V -> option V -> bool) (fuel : nat) (a b : core)
  : option bool :=
  if negb (num_entries a =? num_entries b)%Z then Some false
  else core_eq_loop keqb veqb fuel a b
         (mkiter None (bound_id a true) (bound_id a false))
         (mkiter None (bound_id b true) (bound_id b false)).

End Tree.
Arguments tree K V : clear implicits.
Arguments path K V : clear implicits.
Arguments core K V : clear implicits.
Arguments found K V : clear implicits.
Arguments round K V : clear implicits.
Arguments entry K V : clear implicits.
