(** equal? (src/boolean.c, src/libbool.scm) and the equal-hashes default-hash and portable-hash (src/hash.c).
    A datum lives in a heap; eq? is identity.  Simplifications: a bignum is its value, a flonum its IEEE datum
    (SpecFloat), memory addresses and siphash are arbitrary functions; objects of a class with its own compare
    or hash procedure (NOther) are compared by identity.  Vectors have fewer than 2^31 elements
    (equal_hash_common keeps the size in an int). *)
From Coq Require Import List ZArith Bool Lia QArith SpecFloat.
Import ListNotations.
Local Open Scope Z_scope.

Inductive number := NInt (z : Z) | NRat (n : Z) (d : positive) | NFlo (f : spec_float) | NComp (re im : spec_float).
Inductive obj := OImm (w : Z) | OFix (z : Z) | ORef (a : nat).
Inductive node :=
| NPair (car cdr : obj)
| NVec (l : list obj)
| NNum (n : number)                           (* bignum, ratnum, flonum, compnum *)
| NStr (bytes : list Z) (incomplete : bool)
| NSym (name : list Z)
| NIdent (sym : nat)                          (* an identifier; sym is where the symbol of its outermost name lives *)
| NUInt (ty : nat) (l : list Z)               (* uvectors of integers *)
| NUFlo (ty : nat) (l : list spec_float)      (* uvectors of reals *)
| NOther.
Definition heap := nat -> node.
Definition obj_eqb (x y : obj) : bool :=      (* SCM_EQ *)
  match x, y with OImm a, OImm b => Z.eqb a b | OFix a, OFix b => Z.eqb a b | ORef a, ORef b => Nat.eqb a b | _, _ => false end.
Definition num_of (h : heap) (x : obj) : option number :=
  match x with OFix z => Some (NInt z) | ORef a => match h a with NNum n => Some n | _ => None end | OImm _ => None end.
Definition pair_of (h : heap) (x : obj) : option (obj * obj) :=
  match x with ORef a => match h a with NPair p q => Some (p, q) | _ => None end | _ => None end.
Definition vec_of (h : heap) (x : obj) : option (list obj) :=
  match x with ORef a => match h a with NVec l => Some l | _ => None end | _ => None end.
Definition signbit (f : spec_float) : bool :=
  match f with S754_zero s | S754_infinity s | S754_finite s _ _ => s | S754_nan => false end.
(** src/number.c:3061-3074  Scm_NumEq, for two exact numbers or two inexact ones that are not both flonums *)
Definition exact_val (n : number) : option Q := match n with NInt z => Some (inject_Z z) | NRat n d => Some (n # d)%Q | _ => None end.
Definition num_eqv (a b : number) : bool :=
  match a, b with
  | NFlo f, NFlo g => SFeqb f g && Bool.eqb (signbit f) (signbit g)
  | NFlo _, _ | _, NFlo _ => false
  | NComp r i, NComp r' i' => SFeqb r r' && SFeqb i i'
  | _, _ => match exact_val a, exact_val b with Some p, Some q => Qeq_bool p q | _, _ => false end
  end.
(** src/boolean.c:44-80  Scm_EqvP *)
Definition eqvp (h : heap) (x y : obj) : bool :=
  match num_of h x with
  | Some a => match num_of h y with Some b => num_eqv a b | None => false end
  | None => obj_eqb x y
  end.
Fixpoint zlist_eqb (a b : list Z) : bool :=
  match a, b with [], [] => true | x :: a, y :: b => Z.eqb x y && zlist_eqb a b | _, _ => false end.
Fixpoint flist_eqb (a b : list spec_float) : bool :=
  match a, b with [], [] => true | x :: a, y :: b => SFeqb x y && flist_eqb a b | _, _ => false end.
Definition unwrap (h : heap) (x : obj) : obj := (* src/compaux.c:179-184 *)
  match x with ORef a => match h a with NIdent s => ORef s | _ => x end | _ => x end.
Definition ident_p (h : heap) (x : obj) : bool := match x with ORef a => match h a with NIdent _ => true | _ => false end | _ => false end.
(** src/boolean.c:102-205  Scm_EqualP, x being neither a pair nor a vector; Scm_StringEqual is src/string.c:471-484,
    the uvector comparers src/vector.c:777-792 *)
Definition equal_leaf (h : heap) (x y : obj) : bool :=
  if obj_eqb x y then true else
  match num_of h x with
  | Some _ => match num_of h y with Some _ => eqvp h x y | None => false end
  | None =>
    match x with
    | ORef a =>
      match h a with
      | NStr s i => match y with ORef b => match h b with NStr t j => Bool.eqb i j && zlist_eqb s t | _ => false end | _ => false end
      | _ =>
        if ident_p h x || ident_p h y then obj_eqb (unwrap h x) (unwrap h y)
        else match y with
             | ORef b => match h a, h b with
                         | NUInt t l, NUInt t' l' => Nat.eqb t t' && zlist_eqb l l'
                         | NUFlo t l, NUFlo t' l' => Nat.eqb t t' && flist_eqb l l'
                         | _, _ => false                 (* symbols: symbol_compare, src/symbol.c:281-287 *)
                         end
             | _ => false
             end
      end
    | _ => if ident_p h y then obj_eqb x (unwrap h y) else obj_eqb x y
    end
  end.
(** the outcome of a part of Scm_EqualP: an answer, or goto fallback with these x and y *)
Inductive answer := Yes | No | Fall (x y : obj).
Inductive checked := Go | Stop (a : answer).
(** src/boolean.c:104-115  CHECK_AGGREGATE; fx, fy are the C variables x and y at that point *)
Definition check_aggregate (h : heap) (a b fx fy : obj) : checked :=
  match pair_of h a with
  | Some _ => match pair_of h b with Some _ => Stop (Fall fx fy) | None => Stop No end
  | None =>
    match vec_of h a with
    | Some _ => match vec_of h b with Some _ => Stop (Fall fx fy) | None => Stop No end
    | None => if equal_leaf h a b then Go else Stop No
    end
  end.
(** src/boolean.c:160-176  vectors *)
Fixpoint vec_loop (h : heap) (xs ys : list obj) (fx fy : obj) : answer :=
  match xs, ys with
  | x :: xs, y :: ys => match check_aggregate h x y fx fy with Go => vec_loop h xs ys fx fy | Stop a => a end
  | _, _ => Yes
  end.
(** Scm_EqualP, x and y not both pairs *)
Definition c_nonpair (h : heap) (x y : obj) : answer :=
  match pair_of h x with
  | Some _ => No
  | None =>
    match vec_of h x with
    | Some xs => if obj_eqb x y then Yes else
                 match vec_of h y with
                 | Some ys => if Nat.eqb (length ys) (length xs) then vec_loop h xs ys x y else No
                 | None => No
                 end
    | None => if equal_leaf h x y then Yes else No
    end
  end.
(** src/boolean.c:123-158  lists: the loop over the spine, two cells a turn, hare and tortoise *)
Fixpoint c_spine (h : heap) (fuel : nat) (x y xslow yslow : obj) (xcirc ycirc : bool) : option answer :=
  match fuel with
  | O => None
  | S f =>
    match pair_of h x, pair_of h y with
    | Some (carx, cdrx), Some (cary, cdry) =>
      match check_aggregate h carx cary x y with
      | Stop a => Some a
      | Go =>
        match pair_of h cdrx, pair_of h cdry with
        | Some (carx2, cdrx2), Some (cary2, cdry2) =>
          match check_aggregate h carx2 cary2 cdrx cdry with
          | Stop a => Some a
          | Go =>
            if obj_eqb xslow cdrx && ycirc then Some Yes else
            let xcirc := xcirc || obj_eqb xslow cdrx in
            if obj_eqb yslow cdry && xcirc then Some Yes else
            let ycirc := ycirc || obj_eqb yslow cdry in
            match pair_of h cdrx2, pair_of h cdry2 with
            | Some _, Some _ =>
              match pair_of h xslow, pair_of h yslow with
              | Some (_, xs'), Some (_, ys') => c_spine h f cdrx2 cdry2 xs' ys' xcirc ycirc
              | _, _ => None                              (* does not happen: the tortoise is behind the hare *)
              end
            | _, _ => Some (c_nonpair h cdrx2 cdry2)
            end
          end
        | _, _ => Some (c_nonpair h cdrx cdry)
        end
      end
    | _, _ => Some (c_nonpair h x y)
    end
  end.
Definition c_equal (h : heap) (fuel : nat) (x y : obj) : option answer :=
  if obj_eqb x y then Some Yes else c_spine h fuel x y x y false false.

(** src/libbool.scm:97-210  %interleave-equal?.  A box of the union-find holds another box or a count.
    sys-random is an arbitrary sequence. *)
Inductive cell := Link (b : nat) | Count (n : Z).
Record uf := { ht : list (nat * nat); boxes : list cell; rnd : nat }.
Definition uf0 : uf := {| ht := []; boxes := []; rnd := O |}.
Fixpoint ht_get (l : list (nat * nat)) (x : nat) : option nat :=
  match l with [] => None | (k, b) :: r => if Nat.eqb k x then Some b else ht_get r x end.
Definition ht_put (x b : nat) (s : uf) : uf := {| ht := (x, b) :: ht s; boxes := boxes s; rnd := rnd s |}.
Definition unbox (s : uf) (b : nat) : cell := nth b (boxes s) (Count 0).
Fixpoint upd_nth (l : list cell) (i : nat) (c : cell) : list cell :=
  match l, i with [], _ => [] | _ :: r, O => c :: r | x :: r, S i => x :: upd_nth r i c end.
Definition set_box (b : nat) (c : cell) (s : uf) : uf := {| ht := ht s; boxes := upd_nth (boxes s) b c; rnd := rnd s |}.
(** libbool.scm:164-175  find, with its path compression; fuel: the number of boxes is enough (EqualProofs) *)
Fixpoint find_loop (fuel : nat) (b n : nat) (s : uf) : option (nat * uf) :=
  match fuel with
  | O => None
  | S f => match unbox s n with
           | Link nn => find_loop f n nn (set_box b (Link nn) s)
           | Count _ => Some (n, s)
           end
  end.
Definition find (b : nat) (s : uf) : option (nat * uf) :=
  match unbox s b with Link n => find_loop (length (boxes s)) b n s | Count _ => Some (b, s) end.
(** libbool.scm:163-210  %union-find: #t when x and y are already in one class *)
Definition union_find (x y : nat) (s : uf) : option (bool * uf) :=
  match ht_get (ht s) x, ht_get (ht s) y with
  | None, None =>
    let b := length (boxes s) in
    Some (false, ht_put y b (ht_put x b {| ht := ht s; boxes := boxes s ++ [Count 1]; rnd := rnd s |}))
  | None, Some by_ => match find by_ s with Some (ry, s) => Some (false, ht_put x ry s) | None => None end
  | Some bx, None => match find bx s with Some (rx, s) => Some (false, ht_put y rx s) | None => None end
  | Some bx, Some by_ =>
    match find bx s with
    | None => None
    | Some (rx, s) =>
      match find by_ s with
      | None => None
      | Some (ry, s) =>
        if Nat.eqb rx ry then Some (true, s) else
        match unbox s rx, unbox s ry with
        | Count nx, Count ny =>
          if nx >? ny then Some (false, set_box rx (Count (nx + ny)) (set_box ry (Link rx) s))
          else Some (false, set_box ry (Count (ny + nx)) (set_box rx (Link ry) s))
        | _, _ => None
        end
      end
    end
  end.
Definition K0 : Z := 401.
Definition Kb : Z := -40.
Definition R := option (option Z * uf).       (* None: not yet finished; Some (None, _): #f *)
(** the loop over the elements of two vectors, libbool.scm:134-139, 154-159 *)
Fixpoint vloop (E : obj -> obj -> Z -> uf -> R) (l : list (obj * obj)) (k : Z) (s : uf) : R :=
  match l with
  | [] => Some (Some k, s)
  | (x, y) :: r => match E x y k s with
                   | Some (Some k, s) => vloop E r k s
                   | other => other
                   end
  end.
(** libbool.scm:106-160  e?, slow? and fast? *)
Fixpoint e_p (h : heap) (orc : nat -> Z) (fuel : nat) (x y : obj) (k : Z) (s : uf) : R :=
  match fuel with
  | O => None
  | S f =>
    let slow := (k <=? 0) && negb (k =? Kb) in
    let '(k, s) := if (k <=? 0) && (k =? Kb) then (orc (rnd s) mod (2 * K0), {| ht := ht s; boxes := boxes s; rnd := S (rnd s) |}) else (k, s) in
    if slow then
      if eqvp h x y then Some (Some k, s) else
      match x, pair_of h x, vec_of h x with
      | ORef a, Some (carx, cdrx), _ =>
        match y, pair_of h y with
        | ORef b, Some (cary, cdry) =>
          match union_find a b s with
          | None => None
          | Some (true, s) => Some (Some 0, s)
          | Some (false, s) =>
            match e_p h orc f carx cary (k - 1) s with
            | Some (Some k, s) => e_p h orc f cdrx cdry k s
            | other => other
            end
          end
        | _, _ => Some (None, s)
        end
      | ORef a, None, Some xs =>
        match y, vec_of h y with
        | ORef b, Some ys =>
          if Nat.eqb (length ys) (length xs) then
            match union_find a b s with
            | None => None
            | Some (true, s) => Some (Some 0, s)
            | Some (false, s) => vloop (e_p h orc f) (combine xs ys) (k - 1) s
            end
          else Some (None, s)
        | _, _ => Some (None, s)
        end
      | _, _, _ => Some (if equal_leaf h x y then Some k else None, s)
      end
    else
      let k := k - 1 in
      if eqvp h x y then Some (Some k, s) else
      match pair_of h x, vec_of h x with
      | Some (carx, cdrx), _ =>
        match pair_of h y with
        | Some (cary, cdry) => match e_p h orc f carx cary k s with
                               | Some (Some k, s) => e_p h orc f cdrx cdry k s
                               | other => other
                               end
        | None => Some (None, s)
        end
      | None, Some xs =>
        match vec_of h y with
        | Some ys => if Nat.eqb (length ys) (length xs) then vloop (e_p h orc f) (combine xs ys) k s else Some (None, s)
        | None => Some (None, s)
        end
      | None, None => Some (if equal_leaf h x y then Some k else None, s)
      end
  end.
Definition interleave_equal (h : heap) (orc : nat -> Z) (fuel : nat) (x y : obj) : option bool :=
  match e_p h orc fuel x y K0 uf0 with
  | Some (Some _, _) => Some true
  | Some (None, _) => Some false
  | None => None
  end.
(** equal? *)
Definition equal_p (h : heap) (orc : nat -> Z) (fuel : nat) (x y : obj) : option bool :=
  match c_equal h fuel x y with
  | Some Yes => Some true
  | Some No => Some false
  | Some (Fall x y) => interleave_equal h orc fuel x y
  | None => None
  end.

(** Hash values.  All arithmetic is on 64 bit words. *)
Definition word (z : Z) : Z := z mod 2 ^ 64.
Definition small_int_hash (v : Z) : Z := word (v * 2654435761).       (* src/hash.c:113-114 *)
Definition combine_hash (h1 h2 : Z) : Z := word (h1 * 5 + h2).        (* src/hash.c:126 *)
Definition portable_mask : Z := 2 ^ 32 - 1.
Definition hash_mask : Z := 2 ^ 61 - 1.
Definition mask (portable : bool) : Z := if portable then portable_mask else hash_mask.
(** the words of a bignum's magnitude *)
Fixpoint words (fuel : nat) (z : Z) : list Z :=
  match fuel with O => [] | S f => if z =? 0 then [] else z mod 2 ^ 64 :: words f (z / 2 ^ 64) end.
Definition bignum_words (z : Z) : list Z := words (S (Z.to_nat (Z.log2 (Z.abs z)))) (Z.abs z).
Definition fixnum_p (z : Z) : bool := (- 2 ^ 61 <=? z) && (z <? 2 ^ 61).
(** src/hash.c:157-193, integers *)
Definition int_hash (z : Z) (portable : bool) : Z :=
  if fixnum_p z then
    let u := if portable then let u := Z.abs z in Z.land (Z.land u (2 ^ 32 - 1) + Z.shiftr u 32) (2 ^ 32 - 1) else z in
    Z.land (small_int_hash u) (mask portable)
  else
    let u := fold_left (fun u w => word (u + (if portable then Z.land w (2 ^ 32 - 1) + Z.shiftr w 32 else w))) (bignum_words z) 0 in
    Z.land (small_int_hash u) (mask portable).
(** src/hash.c:143-155  flonum_hash; Scm_DecodeFlonum is src/number.c:437-480 *)
Definition flonum_hash (f : spec_float) (portable : bool) : Z :=
  match f with
  | S754_zero s => combine_hash (int_hash 0 portable) (small_int_hash ((-1074) * (if s then -1 else 1)))
  | S754_finite s m e => combine_hash (int_hash (Zpos m) portable) (small_int_hash (e * (if s then -1 else 1)))
  | _ => 0
  end.
(** src/hash.c:157-211  number_hash *)
Definition number_hash (n : number) (portable : bool) : Z :=
  match n with
  | NInt z => int_hash z portable
  | NFlo f => Z.land (flonum_hash f portable) (mask portable)
  | NRat n d => Z.land (combine_hash (int_hash n portable) (int_hash (Zpos d) portable)) (mask portable)
  | NComp r i => Z.land (combine_hash (flonum_hash r portable) (flonum_hash i portable)) (mask portable)
  end.
(** what the environment supplies: siphash of a byte string (with the salt), of a uvector's memory, the address hash
    of an object, the hash of an object of some other class, and that of an identifier (object-hash) *)
Record henv := { sip : bool -> list Z -> Z; sip_uv : bool -> nat -> list Z -> Z; addr_hash : nat -> Z; other_hash : nat -> Z; ident_hash : nat -> Z }.
(** src/hash.c:347-425  equal_hash_common.  acc = Some a: inside SCM_FOR_EACH with the hash so far *)
Definition f64_seed : Z := 2350294565.
Fixpoint vhash (H : obj -> option Z) (l : list obj) (acc : Z) : option Z :=
  match l with [] => Some acc | x :: r => match H x with Some v => vhash H r (combine_hash acc v) | None => None end end.
Fixpoint hash_rec (h : heap) (env : henv) (portable : bool) (salt : Z) (fuel : nat) (acc : option Z) (x : obj) : option Z :=
  match fuel with
  | O => None
  | S f =>
    match acc with
    | Some a =>
      match pair_of h x with
      | Some (p, q) => match hash_rec h env portable salt f None p with
                       | Some v => hash_rec h env portable salt f (Some (combine_hash a v)) q
                       | None => None
                       end
      | None => match hash_rec h env portable salt f None x with
                | Some v => Some (combine_hash a v)
                | None => None
                end
      end
    | None =>
      match num_of h x with
      | Some n => Some (number_hash n portable)
      | None =>
        match x with
        | OImm w => Some (Z.land (small_int_hash w) portable_mask)
        | OFix z => Some (number_hash (NInt z) portable)
        | ORef a =>
          match h a with
          | NStr s _ => Some (sip env portable s)
          | NPair _ _ => hash_rec h env portable salt f (Some 0) x
          | NVec l => vhash (hash_rec h env portable salt f None) l 0
          | NUInt ty l => Some (sip_uv env portable ty l)
          | NUFlo ty l =>                                (* src/hash.c:313-323: f64vector, portable *)
            Some (fold_left (fun r e => combine_hash r (flonum_hash e true)) l (small_int_hash (Z.lxor f64_seed salt)))
          | NSym s => Some (if portable then sip env true s else addr_hash env a)
          | NIdent _ => Some (ident_hash env a)
          | NOther => Some (other_hash env a)
          | NNum n => Some (number_hash n portable)
          end
        end
      end
    end
  end.
(** src/hash.c:443-462: portable-hash, default-hash *)
Definition equal_hash (h : heap) (env : henv) (portable : bool) (salt : Z) (fuel : nat) (x : obj) : option Z :=
  match hash_rec h env portable salt fuel None x with Some v => Some (Z.land v (mask portable)) | None => None end.
