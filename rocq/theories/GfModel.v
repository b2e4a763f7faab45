(** Generic functions: method selection and ordering (src/class.c) and the dispatch table (src/dispatch.c).
    A class is its address.  cpl is what klass->cpa holds; arguments are represented by their classes.
    Not modelled: locked methods, sealed generics, class redefinition (which drops the table), concurrent
    changes, generic functions with their own compute-applicable-methods. *)
From Coq Require Import List Bool Arith ZArith.
Import ListNotations.
Local Open Scope Z_scope.

Definition class := Z.
Definition top : class := 0.
(** src/gauche/procedure.h  ScmMethod; specs has req elements *)
Record method := { mid : nat; req : nat; opt : bool; specs : list class; leaf : bool; plc : bool }.
Definition meq (a b : method) : bool := Nat.eqb (mid a) (mid b).

Section W.
Variable cpl : class -> list class.
(** src/class.c:951-964  Scm_SubclassP; an argument's class is never <bottom> *)
Definition subclassp (sub type : class) : bool := (sub =? type) || existsb (fun c => c =? type) (cpl sub).
(** src/class.c:2218-2231  Scm_MethodApplicableForClasses; reading an element of types that has not been set gives false *)
Fixpoint sp_loop (sp types : list class) : bool :=
  match sp, types with
  | [], _ => true
  | s :: sp', [] => (s =? top) && sp_loop sp' []
  | s :: sp', t :: ts => if s =? top then sp_loop sp' ts else if subclassp t s then sp_loop sp' ts else false
  end.
Definition applicable_for (m : method) (types : list class) (nargs : nat) : bool :=
  if (nargs <? req m)%nat || (negb (opt m) && negb (nargs =? req m)%nat) then false else sp_loop (specs m) types.

(** src/dispatch.c:123-146  mhash_entry, mhash; a class is None when it is the NULL after the specializers *)
Inductive bin := Free | Del | Ent (k : option class) (nargs : nat) (lv nl : list method).
Record mhash := { bins : list bin; entries : nat }.
Definition size h := length (bins h).
Definition MAXARGS : nat := 4.            (* gauche/priv/dispatchP.h:42 *)
Definition keq (a b : option class) : bool :=
  match a, b with Some x, Some y => x =? y | None, None => true | _, _ => false end.
(** src/dispatch.c:146-149  mhashfn, on 64-bit words; sizes are powers of 2, & is mod *)
Definition mhashfn (k : option class) (nargs : nat) : Z :=
  ((((match k with Some c => c | None => 0 end) / 8 + Z.of_nat nargs) * 2654435761) mod 2 ^ 64) / 2 ^ 20.
Definition start (k : option class) (nargs sz : nat) : nat := Z.to_nat (mhashfn k nargs mod Z.of_nat sz).
Definition next (sz j i : nat) : nat := ((j + i + 1) mod sz)%nat.
(** src/dispatch.c:160-184  mhash_probe: None is #f *)
Fixpoint probe (h : mhash) k nargs (fuel i j : nat) : option (list method) :=
  match fuel with
  | O => None
  | S f => match nth j (bins h) Free with
           | Free => None
           | Ent k' n' lv nl =>
               if keq k' k && (n' =? nargs)%nat then match nl with [] => Some lv | _ => None end
               else probe h k nargs f (S i) (next (size h) j i)
           | Del => probe h k nargs f (S i) (next (size h) j i)
           end
  end.
Definition mhash_probe h k nargs := probe h k nargs (size h) 0 (start k nargs (size h)).
Fixpoint setnth {A} (l : list A) (j : nat) (x : A) : list A :=
  match l, j with [], _ => [] | _ :: r, O => x :: r | a :: r, S j' => a :: setnth r j' x end.
(** src/dispatch.c:186-222  mhash_insert_1: the loop finds the slot and the lists; continue does not move j *)
Fixpoint find_slot (h : mhash) k nargs (fuel i j : nat) (free : option nat) : option nat * list method * list method * bool :=
  match fuel with
  | O => (free, [], [], false)
  | S f => match nth j (bins h) Free with
           | Free => (match free with None => Some j | _ => free end, [], [], false)
           | Del => find_slot h k nargs f (S i) j (match free with None => Some j | _ => free end)
           | Ent k' n' lv nl => if keq k' k && (n' =? nargs)%nat then (Some j, lv, nl, true)
                                else find_slot h k nargs f (S i) (next (size h) j i) free
           end
  end.
Definition mhash_insert_1 h k nargs m : option mhash :=
  let '(slot, lt, nt, found) := find_slot h k nargs (size h) 0 (start k nargs (size h)) None in
  match slot with
  | None => None                          (* SCM_ASSERT fails *)
  | Some j => Some {| bins := setnth (bins h) j (Ent k nargs (if leaf m then m :: lt else lt) (if leaf m then nt else m :: nt));
                      entries := S (entries h - if found then 1 else 0) |}
  end.
(** src/dispatch.c:224-248  mhash_insert: into a table of twice the size *)
Fixpoint rehash_slot (bs : list bin) (fuel i j : nat) : option nat :=
  match fuel with
  | O => None
  | S f => match nth j bs Del with Free => Some j | _ => rehash_slot bs f (S i) (next (length bs) j i) end
  end.
Fixpoint rehash (bs : list bin) (old : list bin) : option (list bin) :=
  match old with
  | [] => Some bs
  | Ent k n lv nl :: r => match rehash_slot bs (length bs) 0 (start k n (length bs)) with
                          | None => None
                          | Some j => rehash (setnth bs j (Ent k n lv nl)) r
                          end
  | _ :: r => rehash bs r
  end.
Definition mhash_insert h k nargs m : option mhash :=
  if (size h <=? entries h * 2)%nat
  then match rehash (repeat Free (size h * 2)) (bins h) with
       | None => None
       | Some bs => mhash_insert_1 {| bins := bs; entries := entries h |} k nargs m
       end
  else mhash_insert_1 h k nargs m.
(** src/dispatch.c:250-290  mhash_delete *)
Definition del1 (m : method) (l : list method) : list method :=
  match l with
  | x :: r => if meq x m then r else filter (fun y => negb (meq y m)) l
  | [] => []
  end.
Fixpoint delete_loop (h : mhash) k nargs m (fuel i j : nat) : mhash :=
  match fuel with
  | O => h
  | S f => match nth j (bins h) Free with
           | Free => h
           | Del => delete_loop h k nargs m f (S i) j
           | Ent k' n' lv nl =>
               if keq k' k && (n' =? nargs)%nat then
                 match del1 m lv with
                 | [] => {| bins := setnth (bins h) j Del; entries := pred (entries h) |}      (* 273: looks at ml twice *)
                 | ml => {| bins := setnth (bins h) j (Ent k nargs ml (del1 m nl)); entries := entries h |}
                 end
               else delete_loop h k nargs m f (S i) (next (size h) j i)
           end
  end.
Definition mhash_delete h k nargs m := delete_loop h k nargs m (size h) 0 (start k nargs (size h)).
(** src/dispatch.c:312-340  add_method_to_dispatcher, delete_method_from_dispatcher: the numbers of arguments *)
Definition keys_of (axis : nat) (m : method) : list nat :=
  if (axis <=? req m)%nat then if opt m then seq (req m) (MAXARGS - req m) else [req m] else [].
Definition add_to (axis : nat) (m : method) (h : mhash) : option mhash :=
  fold_left (fun o n => match o with Some h => mhash_insert h (nth_error (specs m) axis) n m | None => None end) (keys_of axis m) (Some h).
Definition delete_from (axis : nat) (m : method) (h : mhash) : mhash :=
  fold_left (fun h n => mhash_delete h (nth_error (specs m) axis) n m) (keys_of axis m) h.
Definition empty_hash : mhash := {| bins := repeat Free 32; entries := 0 |}.
(** src/dispatch.c:347-364  Scm__BuildMethodDispatcher *)
Definition build (ms : list method) (axis : nat) : option mhash :=
  fold_left (fun o m => match o with Some h => add_to axis m h | None => None end)
    (filter leaf ms ++ filter (fun m => negb (leaf m)) ms) (Some empty_hash).

Record gf := { methods : list method; maxreq : nat; disp : option (nat * mhash) }.
(** src/dispatch.c:380-390  Scm__MethodDispatcherLookup *)
Definition lookup (d : nat * mhash) (typev : list class) (argc : nat) : option (list method) :=
  if (fst d <=? argc)%nat then mhash_probe (snd d) (nth_error typev (fst d)) argc else None.
(** src/class.c:2239-2294  Scm_ComputeApplicableMethods: argv are the classes of the arguments given one by one,
    rest those of the list of apply.  The two loops that fill typev. *)
Fixpoint fill (nsel : Z) (argv : list class) : list class * Z :=
  match argv with
  | [] => ([], nsel)
  | a :: r => if 0 <=? nsel then let '(t, n) := fill (nsel - 1) r in (a :: t, n) else ([], nsel)
  end.
Fixpoint fill_rest (nsel : Z) (rest : list class) : list class :=
  match rest with [] => [] | a :: r => (if 0 <=? nsel - 1 then [a] else []) ++ fill_rest (nsel - 1) r end.
Definition typev_of (maxreq : nat) (argv : list class) (rest : option (list class)) : list class * nat :=
  let '(t, nsel) := fill (Z.of_nat maxreq) argv in
  match rest with
  | Some r => if nsel =? 0 then (t, length argv) else (t ++ fill_rest nsel r, length argv + length r)%nat
  | None => (t, length argv)
  end.
Definition candidates (g : gf) (typev : list class) (argc : nat) : list method :=
  match disp g with
  | Some d => if (argc <=? MAXARGS)%nat && (1 <=? argc)%nat then
                match lookup d typev argc with Some (x :: l) => x :: l | _ => methods g end
              else methods g
  | None => methods g
  end.
Definition compute_applicable (g : gf) argv rest : list method :=
  match methods g with
  | [] => []
  | _ => let '(typev, argc) := typev_of (maxreq g) argv rest in
         match candidates g typev argc with
         | [m] => if negb (plc m) && applicable_for m typev argc then [m] else []
         | ms => filter (fun m => negb (plc m) && applicable_for m typev argc) ms
         end
  end.
(** src/class.c:2320-2348  method_more_specific: None is the error *)
Fixpoint in_order (x y : class) (l : list class) : option bool :=
  match l with [] => None | c :: r => if x =? c then Some true else if y =? c then Some false else in_order x y r end.
Fixpoint more_loop (xs ys targv : list class) : option (option bool) :=   (* None: error, Some None: all the same *)
  match xs, ys with
  | x :: xs', y :: ys' =>
      match targv with
      | [] => None                        (* not an argument *)
      | ac :: ts => if x =? y then more_loop xs' ys' ts
                    else if x =? ac then Some (Some true) else if y =? ac then Some (Some false)
                    else match in_order x y (cpl ac) with Some b => Some (Some b) | None => None end
      end
  | _, _ => Some None
  end.
Definition more_specific (targv : list class) (x y : method) : option bool :=
  match more_loop (specs x) (specs y) targv with
  | None => None
  | Some (Some b) => Some b
  | Some None => Some (if (req y <? req x)%nat then true else if (req x <? req y)%nat then false else opt y)
  end.
End W.

(** src/class.c:2395-2428  Scm_SortMethods: the three loops *)
Section Sort.
Context {A : Type}.
Variable cmp : A -> A -> option bool.
(** 2415-2424: j is the index of the element that moves down *)
Fixpoint sift (fuel step : nat) (a : list A) (j : nat) : option (list A) :=
  match fuel with
  | O => Some a
  | S f => if (j <? step)%nat then Some a
           else match nth_error a (j - step), nth_error a j with
                | Some x, Some y => match cmp x y with
                                    | None => None
                                    | Some true => Some a
                                    | Some false => sift f step (setnth (setnth a j x) (j - step) y) (j - step)
                                    end
                | _, _ => None
                end
  end.
Definition pass (step : nat) (a : list A) : option (list A) :=
  fold_left (fun o i => match o with Some a => sift (S i) step a i | None => None end) (seq step (length a - step)) (Some a).
Fixpoint shell (fuel step : nat) (a : list A) : option (list A) :=
  match fuel with
  | O => Some a
  | S f => if (step =? 0)%nat then Some a
           else match pass step a with Some b => shell f (step / 2)%nat b | None => None end
  end.
Definition sort_methods (a : list A) : option (list A) := shell (length a) (length a / 2)%nat a.
End Sort.

(** src/vmcall.c:259-296: the methods in the order in which next-method calls them; [] is no applicable method.
    targv: with apply, arguments are taken from the list while fewer than maxreq are at hand (262-277); lc is
    the class of what is left of the list *)
Definition targv_of (maxreq : nat) (argv : list class) (rest : option (list class)) (lc : class) : list class :=
  match rest with
  | None => argv
  | Some r => argv ++ firstn (maxreq - length argv) r ++ [lc]
  end.
Definition call cpl (g : gf) argv rest lc : option (list method) :=
  match compute_applicable cpl g argv rest with
  | a :: b :: l => sort_methods (more_specific cpl (targv_of (maxreq g) argv rest lc)) (a :: b :: l)
  | l => Some l
  end.

(** src/class.c:2752-2838  Scm_AddMethod *)
Definition leqb (a b : list class) : bool := if list_eq_dec Z.eq_dec a b then true else false.
Definition same_sig (a b : method) : bool := Nat.eqb (req a) (req b) && Bool.eqb (opt a) (opt b) && leqb (specs a) (specs b).
Fixpoint replace (m : method) (l : list method) : option (method * list method) :=
  match l with
  | [] => None
  | x :: r => if same_sig m x then Some (x, m :: r)
              else match replace m r with Some (o, r') => Some (o, x :: r') | None => None end
  end.
Definition add_method (m : method) (g : gf) : option gf :=
  let '(ms, mr, old) := match replace m (methods g) with
                        | Some (o, l) => (l, maxreq g, Some o)
                        | None => (m :: methods g, Nat.max (maxreq g) (req m), None)
                        end in
  match disp g with
  | None => Some {| methods := ms; maxreq := mr; disp := None |}
  | Some (ax, h) =>
      let h1 := match old with Some o => delete_from ax o h | None => h end in
      match add_to ax m h1 with
      | Some h2 => Some {| methods := ms; maxreq := mr; disp := Some (ax, h2) |}
      | None => None
      end
  end.
(** src/class.c:2861-2890  Scm_DeleteMethod, of a method of g *)
Fixpoint remove1 (m : method) (l : list method) : list method :=
  match l with [] => [] | x :: r => if meq x m then r else x :: remove1 m r end.
Definition delete_method (m : method) (g : gf) : gf :=
  let ms := remove1 m (methods g) in
  {| methods := ms; maxreq := fold_left (fun a x => Nat.max a (req x)) ms (maxreq g);
     disp := match disp g with Some (ax, h) => Some (ax, delete_from ax m h) | None => None end |}.
(** src/class.c:2435-2447  Scm__GenericBuildDispatcher *)
Definition build_dispatcher (ax : nat) (g : gf) : option gf :=
  if (ax <? MAXARGS)%nat then
    match build (methods g) ax with
    | Some h => Some {| methods := methods g; maxreq := maxreq g; disp := Some (ax, h) |}
    | None => None
    end
  else Some g.
Definition new_gf : gf := {| methods := []; maxreq := 0; disp := None |}.
