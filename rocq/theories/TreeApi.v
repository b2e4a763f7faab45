(** The tree-map procedures of src/libhash.scm:620-740 as steps over [core],
    answering in the vocabulary of TreeSpec. *)
From Coq Require Import List Bool ZArith.
From Verif Require Import Outcome TreeModel TreeSpec.
Import ListNotations.

Section Api.
Context {K V : Type} (cmp : K -> K -> Z).

(** (Scm_Cons (SCM_DICT_KEY e) (SCM_DICT_VALUE e)), libhash.scm:714; a value slot
    that was never set is the null pointer, hence [UB]. *)
Definition pair_of (e : entry K V) : res (K * V) :=
  match e with (_, k, Some v) => Ok (k, v) | _ => UB end.
Definition pair_opt (e : option (entry K V)) : res (option (K * V)) :=
  match e with None => Ok None | Some e => do p <- pair_of e; Ok (Some p) end.
Fixpoint pair_list (l : list (entry K V)) : res (list (K * V)) :=
  match l with
  | [] => Ok []
  | e :: r => do p <- pair_of e; do q <- pair_list r; Ok (p :: q)
  end.

(** src/libhash.scm:660-735, src/treemap.c public API *)
Definition tree_step (o : op K V) (tc : core K V) : res (core K V * ans K V) :=
  match o with
  | OPut k v => do r <- treemap_set cmp tc k v false false; Ok (fst r, AVal (snd r))
  | OUpdate k v => do r <- treemap_set cmp tc k v true false; Ok (fst r, AVal (snd r))
  | OPutNew k v => do r <- treemap_set cmp tc k v false true; Ok (fst r, AVal (snd r))
  | OGet k => Ok (tc, AVal (treemap_ref cmp tc k))
  | ODelete k => do r <- treemap_delete cmp tc k; Ok (fst r, AVal (snd r))
  | OMin => do r <- core_bound tc true false; do e <- pair_opt (snd r); Ok (fst r, AEnt e)
  | OMax => do r <- core_bound tc false false; do e <- pair_opt (snd r); Ok (fst r, AEnt e)
  | OPopMin => do r <- core_bound tc true true; do e <- pair_opt (snd r); Ok (fst r, AEnt e)
  | OPopMax => do r <- core_bound tc false true; do e <- pair_opt (snd r); Ok (fst r, AEnt e)
  | ONear k => let '(e, l, h) := core_near cmp tc k in
               do e <- pair_opt e; do l <- pair_opt l; do h <- pair_opt h; Ok (tc, ANear e l h)
  | OCount => Ok (tc, ANum (num_entries tc))
  | OEntries => do it <- iter_init cmp tc None;
                do l <- of_opt (iter_drain (S (Z.to_nat (num_entries tc))) false tc it);
                do m <- pair_list l; Ok (tc, AList m)
  | OEntriesDown => do it <- iter_init cmp tc None;
                do l <- of_opt (iter_drain (S (Z.to_nat (num_entries tc))) true tc it);
                do m <- pair_list l; Ok (tc, AList m)
  | OClear => Ok (core_clear tc, AUnit)
  | OCopy => Ok (core_copy tc, AUnit)
  | OCheck => Ok (tc, ABool (check_consistency tc))
  end.

Fixpoint tree_run (ops : list (op K V)) (tc : core K V) : res (core K V * list (ans K V)) :=
  match ops with
  | [] => Ok (tc, [])
  | o :: rest =>
    do r <- tree_step o tc;
    do r2 <- tree_run rest (fst r);
    Ok (fst r2, snd r :: snd r2)
  end.

(** One full pass with Scm_TreeIterNext during which the current entry is deleted
    whenever [kill] says so (documented at src/treemap.c:242). *)
Fixpoint sweep (fuel : nat) (kill : K -> bool) (tc : core K V) (it : iter) : res (core K V * list (entry K V)) :=
  match fuel with
  | O => UB
  | S f =>
    let it := iter_next tc it in
    match it_c it with
    | None => Ok (tc, [])
    | Some id =>
      do e <- of_opt (node_at tc id);
      do tc' <- (if kill (snd (fst e)) then do r <- core_delete cmp tc (snd (fst e)); Ok (fst r) else Ok tc);
      do r <- sweep f kill tc' it;
      Ok (fst r, e :: snd r)
    end
  end.

(** A program moving one iterator back and forth over an unchanging tree-map: what
    each Scm_TreeIterNext ([true]) / Scm_TreeIterPrev ([false]) call returns. *)
Fixpoint iter_run (tc : core K V) (moves : list bool) (it : iter) : list (option (entry K V)) :=
  match moves with
  | [] => []
  | m :: r =>
    let it' := if m then iter_next tc it else iter_prev tc it in
    (match it_c it' with None => None | Some id => node_at tc id end) :: iter_run tc r it'
  end.
End Api.
