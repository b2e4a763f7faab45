(** Sparse tables: ext/sparse/sptab.c and sparse.scm:87-252.  The keys are compared by
    [eqf] and hashed by [hashfn] (eq?, eqv?, equal?, string=? or a comparator); neither
    raises an error or touches the table.  The pairs of a chain are represented by value:
    each belongs to one leaf only. *)
From Coq Require Import ZArith List Bool Arith.
From Verif Require Import Outcome BitsModel SparseModel HashSpec SparseSpec.
Import ListNotations.
Local Open Scope Z_scope.

Section Tab.
Context {K V : Type} (hashfn : K -> Z) (eqf : K -> K -> bool).
(** sptab.c:40-52 the union of TLeaf: [TFresh] is entry.key = SCM_UNBOUND, [TNull] after
    clear_leaf.  Reading the other member is UB. *)
Inductive tbody := TFresh | TEntry (k : K) (v : V) | TChain (next : list (K * V)) (pr : K * V) | TNull.
Definition tleaf := leaf tbody.
(** sptab.c:54-67 *)
Definition leaf_is_chained (z : tleaf) : bool := negb (Z.land (leaf_data z) 1 =? 0).
Definition leaf_mark_chained (z : tleaf) : tleaf := leaf_data_bit_set z 0.
Definition leaf_mark_unchained (z : tleaf) : tleaf := leaf_data_bit_reset z 0.
(** sptab.c:69-74; SCM_NEW does not clear the header, so it is arbitrary *)
Definition leaf_allocate (g0 g1 : Z) : tleaf := mkLeaf g0 g1 TFresh.
(** sptab.h:47-54 *)
Record sptab := mkSt { st_trie : ctrie; st_num : Z }.
(** sptab.c:99-134 MakeSparseTable *)
Definition make_sparse_table : sptab := mkSt ctrie_init 0.

(** sptab.c:176-179 the search of the chain *)
Fixpoint chain_ref (key : K) (cp : list (K * V)) (fallback : option V) : option V :=
  match cp with
  | [] => fallback
  | p :: cp' => if eqf key (fst p) then Some (snd p) else chain_ref key cp' fallback
  end.
(** sptab.c:163-183 SparseTableRef; None = SCM_UNBOUND *)
Definition sparse_table_ref (h : heap tbody) (st : sptab) (key : K) (fallback : option V) : res (option V) :=
  do r <- ctrie_get h (st_trie st) (hashfn key);
  match r with
  | None => Ok fallback
  | Some a =>
    do z <- aget h a;
    match leaf_is_chained z, body z with
    | false, TEntry k v => Ok (if eqf key k then Some v else fallback)
    | true, TChain next pr => Ok (if eqf key (fst pr) then Some (snd pr) else chain_ref key next fallback)
    | _, _ => UB
    end
  end.

(** sptab.c:226-233 the loop of SparseTableSet: the chain with the value replaced, if the
    key is in it *)
Fixpoint chain_set (key : K) (value : V) (cp : list (K * V)) : option (list (K * V)) :=
  match cp with
  | [] => None
  | p :: cp' => if eqf (fst p) key then Some ((fst p, value) :: cp') else option_map (cons p) (chain_set key value cp')
  end.
(** sptab.c:220-237 the chained case; true = a new entry *)
Definition set_chained (z : tleaf) (key : K) (value : V) (next : list (K * V)) (pr : K * V) : tleaf * bool :=
  if eqf (fst pr) key then (set_body z (TChain next (fst pr, value)), false)
  else match chain_set key value next with
       | Some next1 => (set_body z (TChain next1 pr), false)
       | None => (set_body z (TChain (pr :: next) (key, value)), true)
       end.
(** sptab.c:189-238 SparseTableSet with flags = 0 *)
Definition sparse_table_set (g0 g1 : Z) (h : heap tbody) (st : sptab) (key : K) (value : V) : res (heap tbody * sptab) :=
  do x <- ctrie_add h (st_trie st) (hashfn key) (leaf_allocate g0 g1);
  let '(h1, ct1, a) := x in
  do z <- aget h1 a;
  do y <- match leaf_is_chained z, body z with
          | false, TFresh => Ok (set_body z (TEntry key value), true)
          | false, TEntry k0 v0 =>
            if eqf k0 key then Ok (set_body z (TEntry k0 value), false)
            else Ok (set_chained (leaf_mark_chained z) key value [] (k0, v0))
          | true, TChain next pr => Ok (set_chained z key value next pr)
          | _, _ => UB
          end;
  do h2 <- aset h1 a (fst y);
  Ok (h2, mkSt ct1 (if (snd y : bool) then (st_num st + 1) mod 2 ^ 64 else st_num st)).

(** sptab.c:267-278 the loop of SparseTableDelete *)
Fixpoint chain_delete (key : K) (cp : list (K * V)) : option (V * list (K * V)) :=
  match cp with
  | [] => None
  | pp :: cp' => if eqf key (fst pp) then Some (snd pp, cp')
                 else option_map (fun r => (fst r, pp :: snd r)) (chain_delete key cp')
  end.
(** sptab.c:280-286 make sure we have more than one entry in a chained leaf *)
Definition unchain (z : tleaf) (next : list (K * V)) (pr : K * V) : tleaf :=
  match next with
  | [] => set_body (leaf_mark_unchained z) (TEntry (fst pr) (snd pr))
  | _ => set_body z (TChain next pr)
  end.
(** sptab.c:245-290 SparseTableDelete *)
Definition sparse_table_delete (h : heap tbody) (st : sptab) (key : K) : res (heap tbody * sptab * option V) :=
  do r <- ctrie_get h (st_trie st) (hashfn key);
  match r with
  | None => Ok (h, st, None)
  | Some a =>
    do z <- aget h a;
    match leaf_is_chained z, body z with
    | false, TEntry k v =>
      if eqf key k then
        do d <- ctrie_delete h (st_trie st) (hashfn key);
        Ok (h, mkSt (fst d) ((st_num st - 1) mod 2 ^ 64), Some v)
      else Ok (h, st, None)
    | true, TChain next pr =>
      if eqf key (fst pr) then
        match next with
        | [] => Panic
        | p :: next1 =>
          do h1 <- aset h a (unchain z next1 p);
          Ok (h1, mkSt (st_trie st) ((st_num st - 1) mod 2 ^ 64), Some (snd pr))
        end
      else
        match chain_delete key next with
        | Some (v, next1) =>
          do h1 <- aset h a (unchain z next1 pr);
          Ok (h1, mkSt (st_trie st) ((st_num st - 1) mod 2 ^ 64), Some v)
        | None =>
          do h1 <- aset h a (unchain z next pr);
          Ok (h1, st, None)
        end
    | _, _ => UB
    end
  end.

(** sptab.c:292-302 *)
Definition clear_leaf (z : tleaf) : tleaf := set_body z TNull.
Definition sparse_table_clear (h : heap tbody) (st : sptab) : res (heap tbody * sptab) :=
  do r <- ctrie_clear h (st_trie st) clear_leaf;
  Ok (fst r, mkSt (snd r) 0).

(** sptab.c:308-326 copy_leaf; the chain is copied pair by pair.  A chained leaf that
    holds an entry (or conversely) would be UB: such a copy has the body TNull here. *)
Definition copy_leaf (s : tleaf) : tleaf :=
  mkLeaf (key0 s) (key1 s)
    (match leaf_is_chained s, body s with
     | true, TChain next pr => TChain (map (fun p => (fst p, snd p)) next) (fst pr, snd pr)
     | false, TEntry k v => TEntry k v
     | false, TFresh => TFresh
     | _, _ => TNull
     end).
(** sptab.c:328-334 SparseTableCopy *)
Definition sparse_table_copy (h : heap tbody) (st : sptab) : res (heap tbody * sptab) :=
  do r <- ctrie_copy h (st_trie st) copy_leaf;
  Ok (fst r, mkSt (snd r) (st_num st)).

(** sptab.h:74-79, sptab.c:340-365 *)
Record stiter := mkSi { si_ct : ctiter; si_chain : list (K * V); si_end : bool }.
Definition sparse_table_iter_init : stiter := mkSi ctiter_init [] false.
Definition sparse_table_iter_next (h : heap tbody) (st : sptab) (it : stiter) : res (stiter * option (K * V)) :=
  if si_end it then Ok (it, None)
  else match si_chain it with
       | p :: chain => Ok (mkSi (si_ct it) chain false, Some p)
       | [] =>
         do r <- ctiter_next h (st_trie st) (si_ct it);
         match snd r with
         | None => Ok (mkSi (fst r) [] true, None)
         | Some a =>
           do z <- aget h a;
           match leaf_is_chained z, body z with
           | false, TEntry k v => Ok (mkSi (fst r) [] false, Some (k, v))
           | true, TChain next pr => Ok (mkSi (fst r) next false, Some pr)
           | _, _ => UB
           end
         end
       end.
(** sparse.scm:99-106 sparse-table-fold, with a proc that leaves the table alone.  The
    loop is cut after [fuel] iterations (UB). *)
Fixpoint fold_loop {A} (fuel : nat) (h : heap tbody) (st : sptab) (proc : K -> V -> A -> A) (it : stiter) (seed : A) : res A :=
  match fuel with
  | O => UB
  | S f =>
    do r <- sparse_table_iter_next h st it;
    match snd r with
    | None => Ok seed
    | Some p => fold_loop f h st proc (fst r) (proc (fst p) (snd p) seed)
    end
  end.
Definition sparse_table_fold {A} (h : heap tbody) (st : sptab) (proc : K -> V -> A -> A) (seed : A) : res A :=
  fold_loop (S (Z.to_nat (st_num st))) h st proc sparse_table_iter_init seed.

(** ** The operations of sparse.scm:178-221 on all the tables made so far.  The
    garbage in a newly allocated leaf header is [g]. *)
Record world := mkW { w_heap : heap tbody; w_tabs : list sptab }.
Definition on_tab (w : world) (i : nat) (f : sptab -> res (heap tbody * sptab * sans K V)) : res (world * sans K V) :=
  match nth_error (w_tabs w) i with
  | None => Ok (w, AUnit)
  | Some st => do r <- f st; Ok (mkW (fst (fst r)) (lupd i (snd (fst r)) (w_tabs w)), snd r)
  end.
Definition table_step (g : Z * Z) (o : sop K V) (w : world) : res (world * sans K V) :=
  let h := w_heap w in
  match o with
  | SNew => Ok (mkW h (w_tabs w ++ [make_sparse_table]), AUnit)
  | SSet i k v => on_tab w i (fun st => do r <- sparse_table_set (fst g) (snd g) h st k v; Ok (r, AUnit))
  | SRef i k fb => on_tab w i (fun st => do r <- sparse_table_ref h st k fb; Ok (h, st, val_or_err r))
  | SExists i k => on_tab w i (fun st => do r <- sparse_table_ref h st k None; Ok (h, st, ABool (bound r)))
  | SDelete i k => on_tab w i (fun st => do r <- sparse_table_delete h st k; Ok (fst r, ABool (bound (snd r))))
  (* sparse.scm:125-127 *)
  | SUpdate i k f fb => on_tab w i (fun st =>
      do r <- sparse_table_ref h st k fb;
      match r with
      | None => Ok (h, st, AErr)
      | Some v => do s <- sparse_table_set (fst g) (snd g) h st k (f v); Ok (s, AVal (f v))
      end)
  | SClear i => on_tab w i (fun st => do r <- sparse_table_clear h st; Ok (r, AUnit))
  | SCopy i => match nth_error (w_tabs w) i with
               | None => Ok (w, AUnit)
               | Some st => do r <- sparse_table_copy h st; Ok (mkW (fst r) (w_tabs w ++ [snd r]), AUnit)
               end
  | SNum i => on_tab w i (fun st => Ok (h, st, ANum (st_num st)))
  | SFold i => on_tab w i (fun st => do l <- sparse_table_fold h st (fun k v s => s ++ [(k, v)]) []; Ok (h, st, AList l))
  | SCheck i => on_tab w i (fun st => do _ <- ctrie_check (st_trie st); Ok (h, st, AUnit))
  end.
Fixpoint table_run (gs : nat -> Z * Z) (ops : list (sop K V)) (w : world) : res (world * list (sans K V)) :=
  match ops with
  | [] => Ok (w, [])
  | o :: rest =>
    do r <- table_step (gs O) o w;
    do s <- table_run (fun n => gs (S n)) rest (fst r);
    Ok (fst s, snd r :: snd s)
  end.
End Tab.
Arguments tbody K V : clear implicits.
Arguments world K V : clear implicits.
