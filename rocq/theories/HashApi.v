(** The hash-table procedures of src/libhash.scm:272-349 as steps. *)
From Coq Require Import List Bool ZArith.
From Verif Require Import Outcome HashModel HashSpec.
Import ListNotations.

Section Api.
Context {K V : Type} (hashfn : K -> Z) (cmpfn : K -> K -> bool).

(** (SCM_DICT_KEY e) (SCM_DICT_VALUE e) of delivered entries, libhash.scm:317-325 *)
Fixpoint entry_pairs (l : list (hentry K V)) : res (fmap K V) :=
  match l with
  | [] => Ok []
  | e :: r => match evalue e with
              | Some v => do q <- entry_pairs r; Ok ((ekey e, v) :: q)
              | None => UB
              end
  end.

Definition hash_step (o : hop K V) (t : htable K V) : res (htable K V * hans K V) :=
  match o with
  | HPut k v => do r <- hash_table_set hashfn cmpfn t k v false false; Ok (fst r, HVal (snd r))
  | HReplace k v => do r <- hash_table_set hashfn cmpfn t k v true false; Ok (fst r, HVal (snd r))
  | HAdjoin k v => do r <- hash_table_set hashfn cmpfn t k v false true; Ok (fst r, HVal (snd r))
  | HGet k => do r <- hash_table_ref hashfn cmpfn t k; Ok (t, HVal r)
  | HDelete k => do r <- hash_table_delete hashfn cmpfn t k; Ok (fst r, HVal (snd r))
  | HCount => Ok (t, HNum (num_entries t))
  | HEntries => do r <- hash_sweep hashfn cmpfn (S (Z.to_nat (num_entries t))) (fun _ => false) t (hash_iter_init t);
                do l <- entry_pairs (snd r); Ok (fst r, HList l)
  | HClear => Ok (hash_core_clear t, HUnit)
  | HCopy => Ok (hash_core_copy t, HUnit)
  | HSweep kill => do r <- hash_sweep hashfn cmpfn (S (Z.to_nat (num_entries t))) kill t (hash_iter_init t);
                   do l <- entry_pairs (snd r); Ok (fst r, HList l)
  end.
Fixpoint hash_run (ops : list (hop K V)) (t : htable K V) : res (htable K V * list (hans K V)) :=
  match ops with
  | [] => Ok (t, [])
  | o :: rest =>
    do r <- hash_step o t;
    do r2 <- hash_run rest (fst r);
    Ok (fst r2, snd r :: snd r2)
  end.
End Api.
