(** Sparse matrices: sparse.scm:420-640, sparse vectors indexed by interleaved pairs. *)
From Coq Require Import ZArith List Bool Arith.
From Verif Require Import Outcome BitsModel SparseModel HashSpec SparseSpec SparseVec.
Import ListNotations.
Local Open Scope Z_scope.

Definition INTERLEAVE_SHIFT : Z := 4.
Definition INTERLEAVE_MASK : Z := 15.
(** u_long arithmetic: a << n for 0 <= n < 64, otherwise undefined *)
Definition shl (a n : Z) : res Z := if (0 <=? n) && (n <? 64) then Ok (Z.shiftl a n mod 2 ^ 64) else UB.
(** sparse.scm:467-472 the loop of index-combine-2d, cut after [fuel] rounds (UB) *)
Fixpoint combine_loop (fuel : nat) (ix iy bmax shift ind : Z) : res Z :=
  match fuel with
  | O => UB
  | S f =>
    if shift <? bmax + 1 then
      do m <- shl INTERLEAVE_MASK shift;
      do p <- shl (Z.land ix m) shift;
      do q <- shl (Z.land iy m) (shift + INTERLEAVE_SHIFT);
      combine_loop f ix iy bmax (shift + INTERLEAVE_SHIFT) (Z.lor (Z.lor ind p) q)
    else Ok ind
  end.
(** sparse.scm:445-474 index-combine-2d for exact integers x and y; None = out of range *)
Definition index_combine (x y : Z) : res (option Z) :=
  if negb (in_range x) || negb (in_range y) then Ok None
  else if (2 ^ 32 <=? x) || (2 ^ 32 <=? y) then Ok None
  else
    let bx := Z.of_nat (highest x) in
    let by_ := Z.of_nat (highest y) in
    do i <- combine_loop 16 x y (if by_ <? bx then bx else by_) 0 0;
    Ok (Some i).
(** sparse.scm:476-487 index-split-2d, cut likewise *)
Fixpoint split_loop (fuel : nat) (i x y shift : Z) : res (Z * Z) :=
  match fuel with
  | O => UB
  | S f =>
    if i =? 0 then Ok (x, y)
    else
      do p <- shl (Z.land i INTERLEAVE_MASK) shift;
      let i1 := Z.shiftr i INTERLEAVE_SHIFT in
      do q <- shl (Z.land i1 INTERLEAVE_MASK) shift;
      split_loop f (Z.shiftr i1 INTERLEAVE_SHIFT) (Z.lor x p) (Z.lor y q) (shift + INTERLEAVE_SHIFT)
  end.
Definition index_split (i : Z) : res (Z * Z) := split_loop 16 i 0 0 0.

Section Mat.
Context {V : Type} (D : vdesc V) (dflt : option V) (add : V -> V -> V) (zero : V).
(** sparse.scm:625-632 sparse-matrix-fold *)
Fixpoint mfold_loop {A} (fuel : nat) (h : heap (vbody V)) (sv : spvec) (proc : Z -> Z -> V -> A -> A) (it : sviter) (seed : A) : res A :=
  match fuel with
  | O => UB
  | S f =>
    do r <- sparse_vector_iter_next D (S (S (length h))) h sv it;
    match snd r with
    | None => Ok seed
    | Some p => do xy <- index_split (fst p); mfold_loop f h sv proc (fst r) (proc (fst xy) (snd xy) (snd p) seed)
    end
  end.
Definition sparse_matrix_fold {A} (h : heap (vbody V)) (sv : spvec) (proc : Z -> Z -> V -> A -> A) (seed : A) : res A :=
  mfold_loop (S (2 ^ d_shift D * length h)) h sv proc sparse_vector_iter_init seed.

(** sparse.scm:518-614; [on]: on the matrix number i *)
Definition matrix_step (g : Z * Z) (o : mop V) (w : vworld V) : res (vworld V * sans (Z * Z) V) :=
  let h := vw_heap w in
  let err sv := Ok (h, sv, AErr) in
  let on (i : nat) (f : spvec -> res (heap (vbody V) * spvec * sans (Z * Z) V)) : res (vworld V * sans (Z * Z) V) :=
    match nth_error (vw_vecs w) i with
    | None => Ok (w, AUnit)
    | Some sv => do r <- f sv; Ok (mkVW (fst (fst r)) (lupd i (snd (fst r)) (vw_vecs w)), snd r)
    end in
  let set sv i v a := do r <- sparse_vector_set D g h sv i v; Ok (fst r, if (snd r : bool) then a else AErr) in
  match o with
  | MNew => Ok (mkVW h (vw_vecs w ++ [make_sparse_vector]), AUnit)
  | MSet i x y v => on i (fun sv => do c <- index_combine x y; match c with None => err sv | Some k => set sv k v AUnit end)
  | MRef i x y fb => on i (fun sv =>
      do c <- index_combine x y;
      do r <- match c with None => Ok None | Some k => sparse_vector_ref D h sv k fb end;
      Ok (h, sv, val_or_err (orelse r dflt)))
  | MExists i x y => on i (fun sv =>
      do c <- index_combine x y;
      do r <- match c with None => Ok None | Some k => sparse_vector_ref D h sv k None end;
      Ok (h, sv, ABool (bound r)))
  | MDelete i x y => on i (fun sv =>
      do c <- index_combine x y;
      match c with None => err sv | Some k => do r <- sparse_vector_delete D h sv k; Ok (fst r, ABool (bound (snd r))) end)
  | MUpdate i x y f fb => on i (fun sv =>
      do c <- index_combine x y;
      match c with
      | None => err sv
      | Some k => do r <- sparse_vector_ref D h sv k fb;
                  match orelse r dflt with None => err sv | Some v => set sv k (f v) AUnit end
      end)
  | MInc i x y d fb => on i (fun sv =>
      do c <- index_combine x y;
      match c with None => err sv | Some k => do r <- sparse_vector_inc D dflt add zero g h sv k d fb; Ok (fst r, val_or_err (snd r)) end)
  | MClear i => on i (fun sv => do r <- sparse_vector_clear D h sv; Ok (r, AUnit))
  | MCopy i => match nth_error (vw_vecs w) i with
               | None => Ok (w, AUnit)
               | Some sv => do r <- sparse_vector_copy D h sv; Ok (mkVW (fst r) (vw_vecs w ++ [snd r]), AUnit)
               end
  | MNum i => on i (fun sv => Ok (h, sv, ANum (sv_num sv)))
  | MFold i => on i (fun sv => do l <- sparse_matrix_fold h sv (fun x y v s => s ++ [((x, y), v)]) []; Ok (h, sv, AList l))
  end.
Fixpoint matrix_run (gs : nat -> Z * Z) (ops : list (mop V)) (w : vworld V) : res (vworld V * list (sans (Z * Z) V)) :=
  match ops with
  | [] => Ok (w, [])
  | o :: rest =>
    do r <- matrix_step (gs O) o w;
    do s <- matrix_run (fun n => gs (S n)) rest (fst r);
    Ok (fst s, snd r :: snd s)
  end.
End Mat.
