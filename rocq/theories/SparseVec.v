(** Sparse vectors: ext/sparse/spvec.c and sparse.scm:269-378. *)
From Coq Require Import ZArith List Bool Arith.
From Verif Require Import Outcome BitsModel SparseModel HashSpec SparseSpec.
Import ListNotations.
Local Open Scope Z_scope.

Section Vec.
Context {V : Type}.
(** spvec.c:182-185 GLeaf: two ScmObj, each SCM_UNBOUND, NULL or an object;
    spvec.c:265-284 ULeaf: an array of 2^shift numbers *)
Inductive slot := SUnb | SNull | SObj (v : V).
Inductive vbody := GBody (v0 v1 : slot) | UBody (cells : list V).
Definition vleaf := leaf vbody.

(** spvec.h:91-102 SparseVectorDescriptorRec.  None = SCM_UNBOUND. *)
Record vdesc := mkDesc {
  d_ref : vleaf -> Z -> res (option V);
  d_set : vleaf -> Z -> V -> res (vleaf * bool);
  d_alloc : Z -> Z -> vleaf;
  d_delete : vleaf -> Z -> res (vleaf * option V);
  d_clear : vleaf -> vleaf;
  d_copy : vleaf -> vleaf;
  d_iter : vleaf -> Z -> res (Z * option V);
  d_shift : nat }.

(** *** General vectors: spvec.c:187-253 *)
Definition g_val (l : vleaf) (i : bool) : res slot :=
  match body l with GBody v0 v1 => Ok (if i then v1 else v0) | _ => UB end.
Definition g_put (l : vleaf) (i : bool) (s : slot) : res vleaf :=
  match body l with GBody v0 v1 => Ok (set_body l (if i then GBody v0 s else GBody s v1)) | _ => UB end.
Definition slot_obj (s : slot) : res (option V) := match s with SUnb => Ok None | SObj v => Ok (Some v) | SNull => UB end.
Definition low_bit (index : Z) : bool := Z.land index 1 =? 1.
(** spvec.c:187-190 *)
Definition g_ref (l : vleaf) (index : Z) : res (option V) := do s <- g_val l (low_bit index); slot_obj s.
(** spvec.c:192-197 *)
Definition g_allocate (g0 g1 : Z) : vleaf := mkLeaf g0 g1 (GBody SUnb SUnb).
(** spvec.c:199-204 *)
Definition g_set (l : vleaf) (index : Z) (value : V) : res (vleaf * bool) :=
  do s <- g_val l (low_bit index);
  do l1 <- g_put l (low_bit index) (SObj value);
  Ok (l1, match s with SUnb => true | _ => false end).
(** spvec.c:206-211 *)
Definition g_delete (l : vleaf) (index : Z) : res (vleaf * option V) :=
  do s <- g_val l (low_bit index);
  do l1 <- g_put l (low_bit index) SUnb;
  do v <- slot_obj s;
  Ok (l1, v).
(** spvec.c:213-217 *)
Definition g_clear (l : vleaf) : vleaf := set_body l (GBody SNull SNull).
(** spvec.c:219-224 *)
Definition g_copy (l : vleaf) : vleaf := mkLeaf (key0 l) (key1 l) (body l).
(** spvec.c:226-239 *)
Definition g_iter (l : vleaf) (index : Z) : res (Z * option V) :=
  let i0 := index + 1 in
  do r <- (if i0 =? 0 then
             do s <- g_val l false;
             match s with SUnb => Ok (i0 + 1, None) | _ => do v <- slot_obj s; Ok (i0, v) end
           else Ok (i0, None));
  match snd r with
  | Some v => Ok r
  | None =>
    if fst r =? 1 then
      do s <- g_val l true;
      match s with SUnb => Ok (fst r + 1, None) | _ => do v <- slot_obj s; Ok (fst r, v) end
    else Ok r
  end.
(** spvec.c:251-253 *)
Definition g_desc : vdesc := mkDesc g_ref g_set g_allocate g_delete g_clear g_copy g_iter 1.

(** *** Uniform vectors: spvec.c:286-601.  [conv] converts a value to the element type
    (None: Scm_GetInteger8Clamp etc. raise an error) and back; [zero] is the initial
    content of the cells; the mask is 2^shift - 1. *)
Section U.
Context (conv : V -> option V) (zero : V) (shift : nat).
Definition u_mask : Z := 2 ^ Z.of_nat shift - 1.
Definition u_ind (index : Z) : nat := Z.to_nat (Z.land index u_mask).
(** spvec.c:300-302 *)
Definition u_has_entry (l : vleaf) (index : Z) : bool := leaf_data_bit_test l (u_ind index).
Definition u_set_entry (l : vleaf) (index : Z) : vleaf := leaf_data_bit_set l (u_ind index).
Definition u_reset_entry (l : vleaf) (index : Z) : vleaf := leaf_data_bit_reset l (u_ind index).
Definition u_cells (l : vleaf) : res (list V) := match body l with UBody c => Ok c | _ => UB end.
(** spvec.c:304-309: 128 bits of zeros *)
Definition u_allocate (g0 g1 : Z) : vleaf := mkLeaf g0 g1 (UBody (repeat zero (2 ^ shift))).
(** spvec.c:311-321 *)
Definition u_clear (l : vleaf) : vleaf := l.
Definition u_copy (l : vleaf) : vleaf := mkLeaf (key0 l) (key1 l) (body l).
(** spvec.c:327-335 U_REF *)
Definition u_ref (l : vleaf) (index : Z) : res (option V) :=
  if u_has_entry l index then do c <- u_cells l; do v <- aget c (u_ind index); Ok (Some v) else Ok None.
(** spvec.c:359-446 U_SET_INT, U_SET_CHECK *)
Definition u_set (l : vleaf) (index : Z) (value : V) : res (vleaf * bool) :=
  match conv value with
  | None => Err
  | Some v =>
    do c <- u_cells l;
    do c1 <- aset c (u_ind index) v;
    let l1 := set_body l (UBody c1) in
    Ok (u_set_entry l1 index, negb (u_has_entry l1 index))
  end.
(** spvec.c:452-458 U_DEL *)
Definition u_delete (l : vleaf) (index : Z) : res (vleaf * option V) :=
  do r <- u_ref l index;
  match r with None => Ok (l, None) | Some v => Ok (u_reset_entry l index, Some v) end.
(** spvec.c:534-546 u_iter_sub: for (i++; i<=mask; i++); [c] = mask + 1 - i *)
Fixpoint u_iter_loop (c : nat) (l : vleaf) (i : Z) : res (Z * option V) :=
  match c with
  | O => Ok (i, None)
  | S c' => if u_has_entry l i then do v <- u_ref l i; Ok (i, v) else u_iter_loop c' l (i + 1)
  end.
Definition u_iter (l : vleaf) (index : Z) : res (Z * option V) := u_iter_loop (Z.to_nat (u_mask - index)) l (index + 1).
(** spvec.c:572-586 U_DECL *)
Definition u_desc : vdesc := mkDesc u_ref u_set u_allocate u_delete u_clear u_copy u_iter shift.
End U.

(** *** Generic routines: spvec.c:68-167 *)
Context (D : vdesc) (dflt : option V) (add : V -> V -> V) (zero : V).
(** spvec.h:56-63 *)
Record spvec := mkSv { sv_trie : ctrie; sv_num : Z }.
Definition make_sparse_vector : spvec := mkSv ctrie_init 0.
Definition leafno (index : Z) : Z := Z.shiftr index (Z.of_nat (d_shift D)).
(** spvec.c:68-76 *)
Definition sparse_vector_ref (h : heap vbody) (sv : spvec) (index : Z) (fallback : option V) : res (option V) :=
  do r <- ctrie_get h (sv_trie sv) (leafno index);
  match r with
  | None => Ok fallback
  | Some a => do l <- aget h a; do v <- d_ref D l index; Ok (orelse v fallback)
  end.
(** spvec.c:78-85: the state in the first component, whether set raised an error in the
    second (the trie has been extended by then) *)
Definition sparse_vector_set (g : Z * Z) (h : heap vbody) (sv : spvec) (index : Z) (value : V) : res (heap vbody * spvec * bool) :=
  do x <- ctrie_add h (sv_trie sv) (leafno index) (d_alloc D (fst g) (snd g));
  let '(h1, ct1, a) := x in
  do l <- aget h1 a;
  match d_set D l index value with
  | Err => Ok (h1, mkSv ct1 (sv_num sv), false)
  | Ok y => do h2 <- aset h1 a (fst y);
            Ok (h2, mkSv ct1 (if (snd y : bool) then (sv_num sv + 1) mod 2 ^ 64 else sv_num sv), true)
  | Panic => Panic
  | UB => UB
  end.
(** spvec.c:88-96 *)
Definition sparse_vector_delete (h : heap vbody) (sv : spvec) (index : Z) : res (heap vbody * spvec * option V) :=
  do r <- ctrie_get h (sv_trie sv) (leafno index);
  match r with
  | None => Ok (h, sv, None)
  | Some a =>
    do l <- aget h a;
    do y <- d_delete D l index;
    do h1 <- aset h a (fst y);
    Ok (h1, mkSv (sv_trie sv) (if bound (snd y) then (sv_num sv - 1) mod 2 ^ 64 else sv_num sv), snd y)
  end.
(** spvec.c:98-102 *)
Definition sparse_vector_clear (h : heap vbody) (sv : spvec) : res (heap vbody * spvec) :=
  do r <- ctrie_clear h (sv_trie sv) (d_clear D); Ok (fst r, mkSv (snd r) 0).
(** spvec.c:104-113 *)
Definition sparse_vector_copy (h : heap vbody) (sv : spvec) : res (heap vbody * spvec) :=
  do r <- ctrie_copy h (sv_trie sv) (d_copy D); Ok (fst r, mkSv (snd r) (sv_num sv)).
(** spvec.c:143-167; None = the set raised an error *)
Definition sparse_vector_inc (g : Z * Z) (h : heap vbody) (sv : spvec) (index : Z) (delta : V) (fallback : option V) : res (heap vbody * spvec * option V) :=
  let fb := match fallback with Some f => f | None => match dflt with Some d => d | None => zero end end in
  do r <- ctrie_get h (sv_trie sv) (leafno index);
  match r with
  | None =>
    let v := add fb delta in
    do s <- sparse_vector_set g h sv index v;
    Ok (fst s, if (snd s : bool) then Some v else None)
  | Some a =>
    do l <- aget h a;
    do v0 <- d_ref D l index;
    let v := add (match v0 with Some x => x | None => fb end) delta in
    match d_set D l index v with
    | Err => Ok (h, sv, None)
    | Ok y => do h1 <- aset h a (fst y); Ok (h1, sv, Some v)
    | Panic => Panic
    | UB => UB
    end
  end.

(** spvec.h:66-71, spvec.c:115-139.  The loop of IterNext is cut after [fuel] rounds (UB). *)
Record sviter := mkVi { vi_leaf : option nat; vi_index : Z; vi_ct : ctiter }.
Definition sparse_vector_iter_init : sviter := mkVi None (-1) ctiter_init.
Fixpoint sparse_vector_iter_next (fuel : nat) (h : heap vbody) (sv : spvec) (it : sviter) : res (sviter * option (Z * V)) :=
  match fuel with
  | O => UB
  | S f =>
    let advance (i : Z) :=
      do r <- ctiter_next h (sv_trie sv) (vi_ct it);
      match snd r with
      | None => Ok (mkVi None i (fst r), None)
      | Some a => sparse_vector_iter_next f h sv (mkVi (Some a) (-1) (fst r))
      end in
    match vi_leaf it with
    | None => advance (vi_index it)
    | Some a =>
      do l <- aget h a;
      do r <- d_iter D l (vi_index it);
      match snd r with
      | Some v => Ok (mkVi (Some a) (fst r) (vi_ct it),
                      Some ((Z.shiftl (leaf_key l) (Z.of_nat (d_shift D)) + fst r) mod 2 ^ 64, v))
      | None => advance (fst r)
      end
    end
  end.
(** sparse.scm:99-106 with a proc that leaves the vector alone, cut likewise *)
Fixpoint vfold_loop {A} (fuel : nat) (h : heap vbody) (sv : spvec) (proc : Z -> V -> A -> A) (it : sviter) (seed : A) : res A :=
  match fuel with
  | O => UB
  | S f =>
    do r <- sparse_vector_iter_next (S (S (length h))) h sv it;
    match snd r with
    | None => Ok seed
    | Some p => vfold_loop f h sv proc (fst r) (proc (fst p) (snd p) seed)
    end
  end.
Definition sparse_vector_fold {A} (h : heap vbody) (sv : spvec) (proc : Z -> V -> A -> A) (seed : A) : res A :=
  vfold_loop (S (2 ^ d_shift D * length h)) h sv proc sparse_vector_iter_init seed.

(** *** The operations of sparse.scm:300-350 on all the vectors made so far *)
Record vworld := mkVW { vw_heap : heap vbody; vw_vecs : list spvec }.
Definition on_vec (w : vworld) (i : nat) (f : spvec -> res (heap vbody * spvec * sans Z V)) : res (vworld * sans Z V) :=
  match nth_error (vw_vecs w) i with
  | None => Ok (w, AUnit)
  | Some sv => do r <- f sv; Ok (mkVW (fst (fst r)) (lupd i (snd (fst r)) (vw_vecs w)), snd r)
  end.
(** sparse.scm:310-323: the index is any integer; for one outside u_long the fallback is
    not looked at *)
Definition scm_ref (h : heap vbody) (sv : spvec) (k : Z) (fb : option V) : res (option V) :=
  do r <- (if in_range k then sparse_vector_ref h sv k fb else Ok None); Ok (orelse r dflt).
(** sparse.scm:306-308: index::<ulong> *)
Definition scm_set (g : Z * Z) (h : heap vbody) (sv : spvec) (k : Z) (v : V) (a : sans Z V) : res (heap vbody * spvec * sans Z V) :=
  if in_range k then do r <- sparse_vector_set g h sv k v; Ok (fst r, if (snd r : bool) then a else AErr)
  else Ok (h, sv, AErr).
Definition vector_step (g : Z * Z) (o : vop V) (w : vworld) : res (vworld * sans Z V) :=
  let h := vw_heap w in
  match o with
  | VNew => Ok (mkVW h (vw_vecs w ++ [make_sparse_vector]), AUnit)
  | VSet i k v => on_vec w i (fun sv => scm_set g h sv k v AUnit)
  | VRef i k fb => on_vec w i (fun sv => do r <- scm_ref h sv k fb; Ok (h, sv, val_or_err r))
  | VExists i k => on_vec w i (fun sv => do r <- (if in_range k then sparse_vector_ref h sv k None else Ok None); Ok (h, sv, ABool (bound r)))
  | VDelete i k => on_vec w i (fun sv => if in_range k then do r <- sparse_vector_delete h sv k; Ok (fst r, ABool (bound (snd r))) else Ok (h, sv, AErr))
  (* sparse.scm:125-127 *)
  | VUpdate i k f fb => on_vec w i (fun sv =>
      do r <- scm_ref h sv k fb;
      match r with None => Ok (h, sv, AErr) | Some v => scm_set g h sv k (f v) (AVal (f v)) end)
  | VInc i k d fb => on_vec w i (fun sv =>
      if in_range k then do r <- sparse_vector_inc g h sv k d fb; Ok (fst r, val_or_err (snd r)) else Ok (h, sv, AErr))
  | VClear i => on_vec w i (fun sv => do r <- sparse_vector_clear h sv; Ok (r, AUnit))
  | VCopy i => match nth_error (vw_vecs w) i with
               | None => Ok (w, AUnit)
               | Some sv => do r <- sparse_vector_copy h sv; Ok (mkVW (fst r) (vw_vecs w ++ [snd r]), AUnit)
               end
  | VNum i => on_vec w i (fun sv => Ok (h, sv, ANum (sv_num sv)))
  | VFold i => on_vec w i (fun sv => do l <- sparse_vector_fold h sv (fun k v s => s ++ [(k, v)]) []; Ok (h, sv, AList l))
  end.
Fixpoint vector_run (gs : nat -> Z * Z) (ops : list (vop V)) (w : vworld) : res (vworld * list (sans Z V)) :=
  match ops with
  | [] => Ok (w, [])
  | o :: rest =>
    do r <- vector_step (gs O) o w;
    do s <- vector_run (fun n => gs (S n)) rest (fst r);
    Ok (fst s, snd r :: snd s)
  end.
End Vec.
Arguments slot V : clear implicits.
Arguments vbody V : clear implicits.
Arguments vdesc V : clear implicits.
Arguments vworld V : clear implicits.
