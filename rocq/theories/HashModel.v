(** Hash tables of src/hash.c.

    A bucket (chain of Entry linked by [next]) is a list of entries; an entry keeps
    its address [eid], since iterators hold entry pointers.  The three access
    functions (address_access, string_access, general_access) differ only in the
    hash function and the key comparison, which are parameters here. *)
From Coq Require Import List Bool ZArith.
From Verif Require Import Outcome.
Import ListNotations.
Local Open Scope Z_scope.

Section Hash.
Context {K V : Type}.
Variable hashfn : K -> Z.            (* a u_long *)
Variable cmpfn : K -> K -> bool.     (* cmpfn(table, key, e->key) *)

(** src/hash.c:45-50  Entry; the value slot is 0 ([None]) until set *)
Record hentry := mkentry { eid : nat; ekey : K; evalue : option V; ehash : Z }.

(** src/gauche/hash.h ScmHashCore; [hfresh]: next unused entry address *)
Record htable := mktable {
  buckets : list (list hentry); num_buckets : Z; num_log2 : Z; num_entries : Z; hfresh : nat }.

(** src/hash.c:121-122  HASH2INDEX with a 64-bit u_long *)
Definition hash2index (tabsiz bits hashval : Z) : Z :=
  Z.land ((hashval + Z.shiftr hashval (32 - bits)) mod 2 ^ 64) (tabsiz - 1).

Definition INT_MAX : Z := 2147483647.
(** src/hash.c:54-59 *)
Definition DEFAULT_NUM_BUCKETS : Z := 4.
Definition MAX_AVG_CHAIN_LIMITS : Z := 3.
Definition EXTEND_BITS : Z := 2.
Definition MAX_NUM_BUCKETS : Z := Z.shiftr INT_MAX EXTEND_BITS.

(** src/hash.c:1092-1100  round2up on unsigned int; [fuel] exceeds the 32 possible
    doublings *)
Fixpoint round2up_loop (fuel : nat) (n val : Z) : res Z :=
  match fuel with
  | O => UB
  | S f => if n <? val
           then let n' := (n * 2) mod 2 ^ 32 in
                assert (1 <? n') (round2up_loop f n' val)
           else Ok n
  end.
Definition round2up (val : Z) : res Z := round2up_loop 40 1 val.

(** src/hash.c:749-773  hash_core_init.  [initSize] is what the unsigned int
    parameter receives.  The loop counting numBucketsLog2 is [Z.log2]. *)
Definition hash_core_init (initSize : Z) : res htable :=
  do n <- (if initSize =? 0 then Ok DEFAULT_NUM_BUCKETS else round2up initSize);
  Ok (mktable (repeat [] (Z.to_nat n)) n (Z.log2 n) 0 0).

(** src/hash.c:639-641, 697-706, 740-742  walking a chain: entries before the hit,
    the hit, entries after *)
Fixpoint chain_find (key : K) (c : list hentry) : option (list hentry * hentry * list hentry) :=
  match c with
  | [] => None
  | e :: r => if cmpfn key (ekey e) then Some ([], e, r)
              else match chain_find key r with
                   | Some (p, x, s) => Some (e :: p, x, s)
                   | None => None
                   end
  end.

(** table->buckets[index] = c *)
Fixpoint set_nth {A} (i : nat) (c : A) (l : list A) : list A :=
  match l, i with
  | [], _ => []
  | _ :: r, O => c :: r
  | x :: r, S j => x :: set_nth j c r
  end.

(** push an entry at the front of bucket [index] *)
Definition bucket_push (newb : list (list hentry)) (index : Z) (f : hentry) : res (list (list hentry)) :=
  do c <- of_opt (nth_error newb (Z.to_nat index));
  Ok (set_nth (Z.to_nat index) (f :: c) newb).

(** src/hash.c:570-578  the rehashing loop over all entries in iterator order *)
Fixpoint rehash_loop (fs : list hentry) (newsize newbits : Z) (newb : list (list hentry)) : res (list (list hentry)) :=
  match fs with
  | [] => Ok newb
  | f :: r => do b <- bucket_push newb (hash2index newsize newbits (ehash f)) f;
              rehash_loop r newsize newbits b
  end.

(** src/hash.c:543-587  insert_entry.  Simplification: the iterator order over the
    old buckets is written [concat buckets] (that this is the order delivered by
    Scm_HashIterNext is theorem hash_iterator_visits_all). *)
Definition insert_entry (t : htable) (key : K) (hashval index : Z) : res (htable * hentry) :=
  let e := mkentry (hfresh t) key None hashval in
  do b <- bucket_push (buckets t) index e;
  if num_entries t =? INT_MAX then Err
  else
    let n := num_entries t + 1 in
    if (num_buckets t <=? MAX_NUM_BUCKETS) && (num_buckets t * MAX_AVG_CHAIN_LIMITS <? n) then
      let newsize := Z.shiftl (num_buckets t) EXTEND_BITS in
      let newbits := num_log2 t + EXTEND_BITS in
      do newb <- rehash_loop (concat b) newsize newbits (repeat [] (Z.to_nat newsize));
      Ok (mktable newb newsize newbits n (S (hfresh t)), e)
    else Ok (mktable b (num_buckets t) (num_log2 t) n (S (hfresh t)), e).

(** src/hash.c:594-605  delete_entry *)
Definition delete_entry (t : htable) (index : Z) (pre : list hentry) (e : hentry) (post : list hentry) : res (htable * hentry) :=
  assert (0 <=? num_entries t - 1)
    (Ok (mktable (set_nth (Z.to_nat index) (pre ++ post) (buckets t)) (num_buckets t) (num_log2 t)
                 (num_entries t - 1) (hfresh t), e)).

Inductive dictop := DGet | DCreate | DDelete.

(** src/hash.c:629-643, 686-710, 731-744  the access functions with FOUND/NOTFOUND *)
Definition core_search (t : htable) (key : K) (op : dictop) : res (htable * option hentry) :=
  let hashval := hashfn key in
  let index := hash2index (num_buckets t) (num_log2 t) hashval in
  do c <- of_opt (nth_error (buckets t) (Z.to_nat index));
  match chain_find key c with
  | Some (pre, e, post) =>
    match op with
    | DGet | DCreate => Ok (t, Some e)
    | DDelete => do r <- delete_entry t index pre e post; Ok (fst r, Some (snd r))
    end
  | None =>
    match op with
    | DCreate => do r <- insert_entry t key hashval index; Ok (fst r, Some (snd r))
    | _ => Ok (t, None)
    end
  end.

(** SCM_DICT_SET_VALUE(e, v), src/hash.c:999: a store through the entry pointer *)
Definition set_entry_value (t : htable) (id : nat) (v : V) : htable :=
  mktable (map (map (fun e => if Nat.eqb (eid e) id then mkentry (eid e) (ekey e) (Some v) (ehash e) else e)) (buckets t))
          (num_buckets t) (num_log2 t) (num_entries t) (hfresh t).

(** src/hash.c:980-988  Scm_HashTableRef; None: fallback *)
Definition hash_table_ref (t : htable) (key : K) : res (option V) :=
  do r <- core_search t key DGet;
  match snd r with
  | None => Ok None
  | Some e => match evalue e with Some v => Ok (Some v) | None => UB end
  end.

(** src/hash.c:990-1003  Scm_HashTableSet; answer: the previous value *)
Definition hash_table_set (t : htable) (key : K) (value : V) (no_create no_overwrite : bool) : res (htable * option V) :=
  do r <- core_search t key (if no_create then DGet else DCreate);
  match snd r with
  | None => Ok (fst r, None)
  | Some e =>
    if negb no_overwrite || (match evalue e with None => true | Some _ => false end)
    then Ok (set_entry_value (fst r) (eid e) value, evalue e)
    else Ok (fst r, evalue e)
  end.

(** src/hash.c:1005-1011  Scm_HashTableDelete *)
Definition hash_table_delete (t : htable) (key : K) : res (htable * option V) :=
  do r <- core_search t key DDelete;
  Ok (fst r, match snd r with Some e => evalue e | None => None end).

(** src/hash.c:874-880  Scm_HashCoreClear *)
Definition hash_core_clear (t : htable) : htable :=
  mktable (map (fun _ => []) (buckets t)) (num_buckets t) (num_log2 t) 0 (hfresh t).

(** src/hash.c:840-872  Scm_HashCoreCopy: new entries, same chains *)
Fixpoint copy_chain (c : list hentry) (next : nat) : list hentry * nat :=
  match c with
  | [] => ([], next)
  | s :: r => let (r', n) := copy_chain r (S next) in
              (mkentry next (ekey s) (evalue s) (ehash s) :: r', n)
  end.
Fixpoint copy_buckets (b : list (list hentry)) (next : nat) : list (list hentry) * nat :=
  match b with
  | [] => ([], next)
  | c :: r => let (c', n1) := copy_chain c next in
              let (r', n2) := copy_buckets r n1 in (c' :: r', n2)
  end.
Definition hash_core_copy (t : htable) : htable :=
  let (b, n) := copy_buckets (buckets t) (hfresh t) in
  mktable b (num_buckets t) (num_log2 t) (num_entries t) n.

(** src/gauche/hash.h ScmHashIter *)
Record hiter := mkhiter { hi_bucket : nat; hi_next : option nat }.

(** first non-empty bucket at index >= i: src/hash.c:902-908, 918-924 *)
Fixpoint first_chain (b : list (list hentry)) (i : nat) : option (nat * hentry) :=
  match b with
  | [] => None
  | (e :: _) :: _ => Some (i, e)
  | [] :: r => first_chain r (S i)
  end.

(** src/hash.c:899-910  Scm_HashIterInit *)
Definition hash_iter_init (t : htable) : hiter :=
  match first_chain (buckets t) 0 with
  | Some (i, e) => mkhiter i (Some (eid e))
  | None => mkhiter 0 None
  end.

(** dereferencing an entry pointer: the entry and its [next] *)
Fixpoint deref_chain (id : nat) (c : list hentry) : option (hentry * option hentry) :=
  match c with
  | [] => None
  | e :: r => if Nat.eqb (eid e) id then Some (e, hd_error r) else deref_chain id r
  end.
Fixpoint deref (id : nat) (b : list (list hentry)) : option (hentry * option hentry) :=
  match b with
  | [] => None
  | c :: r => match deref_chain id c with Some x => Some x | None => deref id r end
  end.

(** src/hash.c:912-930  Scm_HashIterNext *)
Definition hash_iter_next (t : htable) (it : hiter) : res (hiter * option hentry) :=
  match hi_next it with
  | None => Ok (it, None)
  | Some id =>
    do en <- of_opt (deref id (buckets t));
    match snd en with
    | Some nx => Ok (mkhiter (hi_bucket it) (Some (eid nx)), Some (fst en))
    | None =>
      match first_chain (skipn (S (hi_bucket it)) (buckets t)) (S (hi_bucket it)) with
      | Some (i, e) => Ok (mkhiter i (Some (eid e)), Some (fst en))
      | None => Ok (mkhiter (hi_bucket it) None, Some (fst en))
      end
    end
  end.

(** src/hash.c:1013-1035, src/libhash.scm:342-349  an iterator drained; with [kill],
    the entry just delivered is deleted from the table when [kill] holds of its key
    (the situation the comment at src/hash.c:589-593 allows) *)
Fixpoint hash_sweep (fuel : nat) (kill : K -> bool) (t : htable) (it : hiter) : res (htable * list hentry) :=
  match fuel with
  | O => UB
  | S f =>
    do r <- hash_iter_next t it;
    match snd r with
    | None => Ok (t, [])
    | Some e =>
      do t' <- (if kill (ekey e) then do d <- core_search t (ekey e) DDelete; Ok (fst d) else Ok t);
      do r2 <- hash_sweep f kill t' (fst r);
      Ok (fst r2, e :: snd r2)
    end
  end.

End Hash.
Arguments hentry K V : clear implicits.
Arguments htable K V : clear implicits.
