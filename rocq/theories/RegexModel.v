(** Regular expressions (src/regexp.c): the optimizer rc2_optimize, the code generator rc3 and the matcher rex_rec,
    from the AST on (the parser rc1 is RegexParse).  Simplifications: lookbehind, conditional patterns, grapheme and
    beginning/end-of-word assertions are left out; a charset is a list of ranges with the SCM_CHAR_SET_LARGE_P flag
    (Scm_CharSetContains and friends are modelled in CharsetModel); the table of submatches is a total function.  The
    C stack is unbounded: where the matcher would raise "Ran out of stack" the model runs out of fuel. *)
From Coq Require Import List ZArith Bool.
From Verif Require Import Utf8Model.
Import ListNotations.
Local Open Scope Z_scope.

(** src/regexp.c:106-153  the AST *)
Inductive kind := Greedy | Lazy | While.
Inductive re :=
| Chr (c : Z) | CSet (k : nat) | Comp (k : nat) | Any
| Bos | Eos | Bol | Eol | Wb | Nwb
| Seq (l : list re) | Uncase (l : list re) | Cased (l : list re)
| Alt (l : list re)
| Rep (k : kind) (m : nat) (n : option nat) (l : list re)
| Grp (g : nat) (l : list re)
| Once (l : list re)
| Look (neg : bool) (l : list re)
| Backref (g : nat).
Record cset := { ranges : list (Z * Z); large : bool }.
Definition contains (s : cset) (c : Z) : bool := existsb (fun '(lo, hi) => (lo <=? c) && (c <=? hi)) (ranges s).
(** Scm_CharSetLE(x, complement of y) *)
Definition disjoint (s t : cset) : bool :=
  forallb (fun '(lo, hi) => forallb (fun '(lo', hi') => (hi <? lo') || (hi' <? lo) || (hi <? lo) || (hi' <? lo')) (ranges t)) (ranges s).
Definition getset (sets : list cset) (k : nat) : cset := nth k sets {| ranges := []; large := false |}.

(** src/regexp.c:1098-1140  is_distinct.  A group or a case-switching node stands for its first element *)
Fixpoint down (r : re) : re :=
  match r with
  | Grp _ (a :: _) => down a
  | Uncase (a :: _) => down a
  | Cased (a :: _) => down a
  | _ => r
  end.
Definition atom_distinct (sets : list cset) (x y : re) : bool :=
  match x, y with
  | Chr a, Chr b => negb (a =? b)
  | CSet k, Chr c | Chr c, CSet k => negb (contains (getset sets k) c)
  | CSet k, CSet k' => disjoint (getset sets k) (getset sets k')
  | Comp k, Chr c | Chr c, Comp k => negb (negb (contains (getset sets k) c))
  | Comp k, CSet k' | CSet k', Comp k => negb (disjoint (getset sets k) (getset sets k'))
  | _, _ => false
  end.
Definition is_distinct (sets : list cset) (x y : re) : bool :=
  match down x with
  | Chr _ | CSet _ => atom_distinct sets (down x) (down y)
  | Comp _ => atom_distinct sets (down x) y
  | _ => false
  end.

(** structural equality, for SCM_EQ of an AST with its optimized version (the optimizer returns its argument itself
    exactly when it changed nothing) *)
Definition kind_eqb (a b : kind) : bool := match a, b with Greedy, Greedy | Lazy, Lazy | While, While => true | _, _ => false end.
Fixpoint all2 {A B} (f : A -> B -> bool) (l : list A) (l' : list B) : bool :=
  match l, l' with [], [] => true | x :: l, y :: l' => f x y && all2 f l l' | _, _ => false end.
Definition onat_eqb (a b : option nat) : bool := match a, b with Some x, Some y => Nat.eqb x y | None, None => true | _, _ => false end.
Fixpoint re_eqb (x y : re) {struct x} : bool :=
  let list_eqb := fix list_eqb (l l' : list re) {struct l} := match l, l' with [], [] => true | a :: l, b :: l' => re_eqb a b && list_eqb l l' | _, _ => false end in
  match x, y with
  | Chr a, Chr b => a =? b
  | CSet a, CSet b | Comp a, Comp b => Nat.eqb a b
  | Any, Any | Bos, Bos | Eos, Eos | Bol, Bol | Eol, Eol | Wb, Wb | Nwb, Nwb => true
  | Seq l, Seq l' | Uncase l, Uncase l' | Cased l, Cased l' | Alt l, Alt l' | Once l, Once l' => list_eqb l l'
  | Rep k m n l, Rep k' m' n' l' => kind_eqb k k' && Nat.eqb m m' && onat_eqb n n' && list_eqb l l'
  | Grp g l, Grp g' l' => Nat.eqb g g' && list_eqb l l'
  | Look b l, Look b' l' => Bool.eqb b b' && list_eqb l l'
  | Backref a, Backref b => Nat.eqb a b
  | _, _ => false
  end.

(** src/regexp.c:1014-1096  rc2_optimize_seq and rc2_optimize.  One function in three modes: MSeq, an element of a
    sequence (the result is spliced); MOpt, rc2_optimize; MList, an AST node handed to rc2_optimize_seq as if the list
    that represents it were a sequence (regexp.c:1086: the first element of the body of a repetition), which leaves its
    head and optimizes its children as a sequence. *)
Inductive mode := MSeq | MOpt | MList.
Definition is_nil {A} (l : list A) : bool := match l with [] => true | _ => false end.
Definition opt_seq_with (f : re -> list re -> list re) :=
  fix go (l : list re) (rest : list re) : list re :=
  match l with
  | [] => []
  | x :: l' =>
    let tail := go l' rest in
    f x (if is_nil tail then rest else tail) ++ tail
  end.
Fixpoint opt (sets : list cset) (md : mode) (r : re) (rest : list re) {struct r} : list re :=
  let opt_seq l := opt_seq_with (fun x rest' => opt sets MSeq x rest') l rest in
  (* regexp.c:1083-1089 *)
  let first_item k m n (l : list re) :=
    match l with
    | [] => [Rep k m n []]
    | x :: l' => match opt sets MList x rest with
                 | [x'] => match l' with [] => [Rep k m n [x']] | _ => if re_eqb x x' then [r] else [Rep k m n [x']] end
                 | _ => [r]
                 end
    end in
  match r with
  | Seq l => match md with MSeq => opt_seq l | _ => [Seq (opt_seq l)] end
  | Rep k m n l =>
    match md, k with
    | MSeq, Greedy =>                                       (* regexp.c:1028-1049 *)
      let repbody := opt_seq l in
      match repbody with
      | [] => []
      | b :: _ =>
        match rest with
        | [] => [Rep While m n repbody]
        | x :: _ => if is_distinct sets b x then [Rep While m n repbody] else [Rep Greedy m n repbody]
        end
      end
    | MList, _ => [Rep k m n (opt_seq l)]
    | _, _ => first_item k m n l
    end
  | Alt l => match md with MList => [Alt (opt_seq l)] | _ => [Alt (concat (map (fun x => opt sets MOpt x rest) l))] end
  | Uncase l => [Uncase (opt_seq l)]
  | Cased l => [Cased (opt_seq l)]
  | Grp g l => [Grp g (opt_seq l)]
  | Once l => [Once (opt_seq l)]
  | Look b l => [Look b (opt_seq l)]
  | _ => [r]
  end.
Definition opt_seq (sets : list cset) (l rest : list re) : list re := opt_seq_with (fun x rest' => opt sets MSeq x rest') l rest.
Definition optimize (sets : list cset) (r : re) : re := hd r (opt sets MOpt r []).

(** src/gauche/regexp_insn.h *)
Inductive op := O_MATCH1 | O_MATCH1_RL | O_MATCH | O_MATCH_RL | O_MATCH1_CI | O_MATCH1_CI_RL | O_MATCH_CI | O_MATCH_CI_RL | O_ANY | O_ANY_RL | O_TRY | O_SET | O_SET_RL | O_NSET | O_NSET_RL | O_SET1 | O_SET1_RL | O_NSET1 | O_NSET1_RL | O_JUMP | O_FAIL | O_SUCCESS | O_BEGIN | O_BEGIN_RL | O_END | O_END_RL | O_BOS | O_EOS | O_BOL | O_EOL | O_BOW | O_EOW | O_WB | O_NWB | O_BOG | O_EOG | O_BACKREF | O_BACKREF_RL | O_BACKREF_CI | O_BACKREF_CI_RL | O_CPAT | O_CPATA | O_ONCE | O_ASSERT | O_NASSERT | O_SET1R | O_SET1R_RL | O_NSET1R | O_NSET1R_RL | O_SETR | O_SETR_RL | O_NSETR | O_NSETR_RL | O_MATCH1R | O_MATCHR | O_ANYR.
Definition ops : list op := [O_MATCH1; O_MATCH1_RL; O_MATCH; O_MATCH_RL; O_MATCH1_CI; O_MATCH1_CI_RL; O_MATCH_CI; O_MATCH_CI_RL; O_ANY; O_ANY_RL; O_TRY; O_SET; O_SET_RL; O_NSET; O_NSET_RL; O_SET1; O_SET1_RL; O_NSET1; O_NSET1_RL; O_JUMP; O_FAIL; O_SUCCESS; O_BEGIN; O_BEGIN_RL; O_END; O_END_RL; O_BOS; O_EOS; O_BOL; O_EOL; O_BOW; O_EOW; O_WB; O_NWB; O_BOG; O_EOG; O_BACKREF; O_BACKREF_RL; O_BACKREF_CI; O_BACKREF_CI_RL; O_CPAT; O_CPATA; O_ONCE; O_ASSERT; O_NASSERT; O_SET1R; O_SET1R_RL; O_NSET1R; O_NSET1R_RL; O_SETR; O_SETR_RL; O_NSETR; O_NSETR_RL; O_MATCH1R; O_MATCHR; O_ANYR].
Definition code_of (o : op) : Z := match o with O_MATCH1 => 0 | O_MATCH1_RL => 1 | O_MATCH => 2 | O_MATCH_RL => 3 | O_MATCH1_CI => 4 | O_MATCH1_CI_RL => 5 | O_MATCH_CI => 6 | O_MATCH_CI_RL => 7 | O_ANY => 8 | O_ANY_RL => 9 | O_TRY => 10 | O_SET => 11 | O_SET_RL => 12 | O_NSET => 13 | O_NSET_RL => 14 | O_SET1 => 15 | O_SET1_RL => 16 | O_NSET1 => 17 | O_NSET1_RL => 18 | O_JUMP => 19 | O_FAIL => 20 | O_SUCCESS => 21 | O_BEGIN => 22 | O_BEGIN_RL => 23 | O_END => 24 | O_END_RL => 25 | O_BOS => 26 | O_EOS => 27 | O_BOL => 28 | O_EOL => 29 | O_BOW => 30 | O_EOW => 31 | O_WB => 32 | O_NWB => 33 | O_BOG => 34 | O_EOG => 35 | O_BACKREF => 36 | O_BACKREF_RL => 37 | O_BACKREF_CI => 38 | O_BACKREF_CI_RL => 39 | O_CPAT => 40 | O_CPATA => 41 | O_ONCE => 42 | O_ASSERT => 43 | O_NASSERT => 44 | O_SET1R => 45 | O_SET1R_RL => 46 | O_NSET1R => 47 | O_NSET1R_RL => 48 | O_SETR => 49 | O_SETR_RL => 50 | O_NSETR => 51 | O_NSETR_RL => 52 | O_MATCH1R => 53 | O_MATCHR => 54 | O_ANYR => 55 end.
Definition op_of (b : Z) : option op := nth_error ops (Z.to_nat b).

(** Code being generated: a byte (rc3_emit, regexp.c:1173-1181) or a two byte offset (rc3_emit_offset and
    rc3_fill_offset, regexp.c:1183-1210).  The first pass, which counts, and the patching of offsets are modelled by
    computing each destination from the sizes of the parts. *)
Inductive item := B (b : Z) | Off (t : nat).
Definition OP (o : op) : item := B (code_of o).
Definition isize (i : item) : nat := match i with B _ => 1 | Off _ => 2 end.
Definition size (l : list item) : nat := fold_right (fun i n => (isize i + n)%nat) O l.
Definition emit_item (i : item) : list Z := match i with B b => [u8 b] | Off t => [Z.of_nat t / 256; Z.of_nat t mod 256] end.
Definition item_ok (i : item) : bool := match i with B _ => true | Off t => Z.of_nat t <=? 65535 end.
Definition assemble (l : list item) : option (list Z) := if forallb item_ok l then Some (flat_map emit_item l) else None.

(** src/regexp.c:1216-1268  rc3_seq.  An element is a character or something that generates code at an address *)
Definition gen := nat -> bool -> list item.                 (* address, lastp *)
Inductive elt := EChr (c : Z) | EGen (f : gen).
Definition emit_run (fold : bool) (run : list Z) : list item :=
  match run with
  | [] => []
  | c :: _ =>
    let bs := flat_map char_put run in
    if Nat.eqb (length bs) 1 then [OP (if fold then O_MATCH1_CI else O_MATCH1); B c]
    else OP (if fold then O_MATCH_CI else O_MATCH) :: B (Z.of_nat (length bs)) :: map B bs
  end.
Definition char_max : Z := 127.
Fixpoint seq_items (fold : bool) (run : list Z) (nrun : Z) (l : list elt) (base : nat) (lastp : bool) : list item :=
  match l with
  | [] => emit_run fold run
  | EChr c :: l' =>
    if nrun <? char_max then seq_items fold (run ++ [c]) (nrun + nbytes c) l' base lastp
    else let its := emit_run fold run in
         its ++ seq_items fold [c] (nbytes c) l' (base + size its) lastp
  | EGen f :: l' =>
    let its := emit_run fold run in
    let b := (base + size its)%nat in
    let its2 := f b (lastp && is_nil l') in
    its ++ its2 ++ seq_items fold [] 0 l' (b + size its2) lastp
  end.
(** regexp.c:1540-1589  alternatives; fin is the address after all of them *)
Fixpoint alt_items (fs : list gen) (base : nat) (lastp : bool) (fin : nat) : list item :=
  match fs with
  | [] => [OP O_FAIL]
  | [f] => f base lastp
  | f :: fs' =>
    let body := f (base + 3)%nat lastp in
    let nxt := (base + 3 + size body + 3)%nat in
    OP O_TRY :: Off nxt :: body ++ OP O_JUMP :: Off fin :: alt_items fs' nxt lastp fin
  end.
(** regexp.c:1610-1660  unbounded repetition *)
Definition star_items (greedy : bool) (body : gen) (base : nat) : list item :=
  if greedy then
    let b := body (base + 3)%nat false in
    OP O_TRY :: Off (base + 3 + size b + 3) :: b ++ [OP O_JUMP; Off base]
  else
    let b := body (base + 6)%nat false in
    OP O_TRY :: Off (base + 6) :: OP O_JUMP :: Off (base + 6 + size b + 3) :: b ++ [OP O_JUMP; Off base].
(** regexp.c:1280-1362  rc3_minmax *)
Fixpoint pairs (base k : nat) (target : nat -> nat) (left : nat) : list item :=
  match left with
  | O => []
  | S left' => OP O_TRY :: Off (base + 6) :: OP O_JUMP :: Off (target k) :: pairs (base + 6) (S k) target left'
  end.
Fixpoint copies (body : gen) (n : nat) (base : nat) : list item :=
  match n with O => [] | S n' => let b := body base false in b ++ copies body n' (base + size b)%nat end.
Definition minmax_items (greedy : bool) (count : nat) (body : gen) (base : nat) : list item :=
  let s := size (body O false) in
  if greedy then
    let c0 := (base + 6 * count + 3)%nat in
    pairs base 0 (fun k => c0 + k * s)%nat count ++ [OP O_JUMP; Off (c0 + count * s)] ++ copies body count c0
  else
    let c0 := (base + 6 * count + 6)%nat in
    let target k := (c0 + (count - k) * s)%nat in           (* the first jump to the end, the others one copy earlier each *)
    pairs base 0 target count ++ [OP O_TRY; Off c0; OP O_JUMP; Off (target count)] ++ copies body count c0.
(** regexp.c:1486-1533  the loops without backtracking *)
Definition while_items (sets : list cset) (x : re) : option (list item) :=
  match x with
  | Any => Some [OP O_ANYR]
  | Chr c => Some (if nbytes c =? 1 then [OP O_MATCH1R; B c]
                   else OP O_MATCHR :: B (nbytes c) :: map B (char_put c))
  | CSet k => Some [OP (if large (getset sets k) then O_SETR else O_SET1R); B (Z.of_nat k)]
  | Comp k => Some [OP O_NSETR; B (Z.of_nat k)]
  | _ => None
  end.
Definition elts (f : re -> gen) (l : list re) : list elt :=
  map (fun x => match x with Chr c => EChr c | _ => EGen (f x) end) l.
(** regexp.c:1364-1720  rc3_rec *)
Fixpoint comp (sets : list cset) (multi fold : bool) (r : re) {struct r} : gen :=
  match r with
  | Chr c => fun _ _ => emit_run fold [c]
  | CSet k => fun _ _ => [OP (if large (getset sets k) then O_SET else O_SET1); B (Z.of_nat k)]
  | Comp k => fun _ _ => [OP (if large (getset sets k) then O_NSET else O_NSET1); B (Z.of_nat k)]
  | Any => fun _ _ => [OP O_ANY]
  | Bos => fun _ _ => [OP O_BOS]
  | Eos => fun _ _ => [OP O_EOS]
  | Bol => fun _ _ => [OP O_BOL]
  | Eol => fun _ lastp => if lastp || multi then [OP O_EOL] else [OP O_MATCH1; B 36]
  | Wb => fun _ _ => [OP O_WB]
  | Nwb => fun _ _ => [OP O_NWB]
  | Seq l => seq_items fold [] 0 (elts (comp sets multi fold) l)
  | Uncase l => seq_items true [] 0 (elts (comp sets multi true) l)
  | Cased l => seq_items false [] 0 (elts (comp sets multi false) l)
  | Alt l => fun base lastp =>
      let fs := map (comp sets multi fold) l in
      alt_items fs base lastp (base + size (alt_items fs base lastp O))
  | Grp g l => fun base lastp =>
      OP O_BEGIN :: B (Z.of_nat g) :: seq_items fold [] 0 (elts (comp sets multi fold) l) (base + 2)%nat lastp ++ [OP O_END; B (Z.of_nat g)]
  | Once l => fun base _ =>
      let b := seq_items fold [] 0 (elts (comp sets multi fold) l) (base + 3)%nat true in
      OP O_ONCE :: Off (base + 3 + size b + 1) :: b ++ [OP O_SUCCESS]
  | Look neg l => fun base _ =>
      let b := seq_items fold [] 0 (elts (comp sets multi fold) l) (base + 3)%nat true in
      OP (if neg then O_NASSERT else O_ASSERT) :: Off (base + 3 + size b + 1) :: b ++ [OP O_SUCCESS]
  | Backref g => fun _ _ => [OP (if fold then O_BACKREF_CI else O_BACKREF); B (Z.of_nat g)]
  | Rep k m n l => fun base _ =>
      let es := elts (comp sets multi fold) l in
      let reps lp := seq_items fold [] 0 (concat (repeat es m)) base lp in
      let body := seq_items fold [] 0 es in
      let general :=                                           (* regexp.c:1590-1660 *)
        let multip := match n with None => true | Some n' => (1 <? Z.of_nat n') end in
        let head := reps multip in
        let b := (base + size head)%nat in
        match n with
        | Some n' => if Nat.eqb m n' then head
                     else head ++ minmax_items (match k with Lazy => false | _ => true end) (n' - m) body b
        | None => head ++ star_items (match k with Lazy => false | _ => true end) body b
        end in
      match k, n, l with
      | While, None, [x] => match while_items sets x with Some w => reps false ++ w | None => general end
      | _, _, _ => general
      end
  end.

(** src/regexp.c:1726-1756  is_atom_anchored *)
Fixpoint anchored (atom : re) (r : re) {struct r} : bool :=
  match r with
  | Grp _ (x :: _) | Seq (x :: _) | Uncase (x :: _) | Cased (x :: _) => anchored atom x
  | Alt l => forallb (anchored atom) l
  | Bos | Bol => re_eqb r atom
  | _ => false
  end.
(** regexp.c:1758-1805  is_simple_prefixed *)
Fixpoint simple_prefixed (r : re) : bool :=
  match r with
  | Rep While 1 None [x] => match x with Chr _ | CSet _ | Comp _ => true | _ => false end
  | Seq (x :: _) | Grp _ (x :: _) => simple_prefixed x
  | _ => false
  end.
(** regexp.c:1808-1879  calculate_laset; a set is a predicate on characters *)
Definition merge_laset (a b : option (Z -> bool)) : option (Z -> bool) :=
  match a, b with Some f, Some g => Some (fun c => f c || g c) | _, _ => None end.
Fixpoint laset (sets : list cset) (head : re) (rest : option (Z -> bool)) {struct head} : option (Z -> bool) :=
  let lasetn := fix lasetn (l : list re) : option (Z -> bool) := match l with [] => None | x :: l' => laset sets x (lasetn l') end in
  match head with
  | Chr c => Some (fun d => d =? c)
  | CSet k => Some (contains (getset sets k))
  | Comp k => Some (fun d => negb (contains (getset sets k) d))
  | Seq l | Once l => lasetn l
  | Alt [] => None
  | Alt (x :: l) => fold_left (fun r y => merge_laset r (laset sets y None)) l (laset sets x None)
  | Rep _ m _ l => if Nat.eqb m 0 then merge_laset (lasetn l) rest else lasetn l
  | Grp _ l => lasetn l
  | _ => None
  end.
Record regexp := { rx_code : list Z; rx_sets : list cset; rx_multi : bool; rx_anchored : bool; rx_simple : bool; rx_laset : option (Z -> bool) }.
(** regexp.c:1882-1911  rc3 *)
Definition rc3 (sets : list cset) (multi : bool) (ast : re) : option regexp :=
  match assemble (comp sets multi false ast O true ++ [OP O_SUCCESS]) with
  | None => None                                            (* regexp too large *)
  | Some code =>
    let anch := anchored Bos ast || (negb multi && anchored Bol ast) in
    Some {| rx_code := code; rx_sets := sets; rx_multi := multi; rx_anchored := anch;
            rx_simple := negb anch && simple_prefixed ast; rx_laset := laset sets ast None |}
  end.
(** regexp.c:952-966 (rc1) wraps the parsed AST as group 0; regexp.c:2122-2147  Scm_RegComp after parsing *)
Definition wrap (casefold : bool) (l : list re) : re := Grp 0 (if casefold then [Uncase l] else l).
Definition regcomp (sets : list cset) (multi casefold : bool) (l : list re) : option regexp :=
  rc3 sets multi (optimize sets (wrap casefold l)).

(** The matcher.  src/regexp.c:2195-2209  the context; positions are byte offsets from ctx->input; [buf] is the memory
    from there on, which goes on after ctx->stop. *)
Record ctx := { code : list Z; sets : list cset; multi : bool; buf : list Z; stop : nat; downcase : Z -> Z }.
Notation caps := (nat -> option nat * option nat).
Definition set_start (m : caps) (g p : nat) : caps := fun g' => if Nat.eqb g' g then (Some p, snd (m g)) else m g'.
Definition set_end (m : caps) (g p : nat) : caps := fun g' => if Nat.eqb g' g then (fst (m g), Some p) else m g'.
Definition set_both (m : caps) (g : nat) (v : option nat * option nat) : caps := fun g' => if Nat.eqb g' g then v else m g'.
(** an instruction that only looks at the input: go on at this code and input position, fail, or read out of bounds *)
Inductive eff := Go (pc p : nat) | Fail | Bad.
Definition byte (c : ctx) (p : nat) : Z := nth p (buf c) (-1).
Definition arg (c : ctx) (pc : nat) : Z := nth pc (code c) (-1).
Definition argset (c : ctx) (pc : nat) : cset := getset (sets c) (Z.to_nat (arg c pc)).
Definition get (c : ctx) (p : nat) : getres := char_get (skipn p (buf c)).
Definition offset (c : ctx) (pc : nat) : nat := Z.to_nat (arg c pc * 256 + arg c (S pc)).
Definition step_len (c : ctx) (p : nat) : nat := S (Z.to_nat (nfollows (byte c p))).
Definition charn (g : getres) : Z := match g with Ch ch => ch | _ => -1 end.
Fixpoint match_bytes (c : ctx) (pc p n : nat) : bool :=
  match n with O => true | S n' => (arg c pc =? byte c p) && match_bytes c (S pc) (S p) n' end.
(** regexp.c:2211-2226  match_ci *)
Fixpoint match_ci (c : ctx) (fuel : nat) (pc p : nat) (len : Z) : eff :=
  match fuel with
  | O => Bad
  | S f =>
    match get c p, char_get (skipn pc (code c)) with
    | Oob, _ | _, Oob => Bad
    | g, g' =>
      let inch := charn g in let ch := charn g' in
      let p' := (p + Z.to_nat (nbytes inch))%nat in let pc' := (pc + Z.to_nat (nbytes ch))%nat in
      if negb (downcase c inch =? ch) then Fail
      else if len - nbytes inch >? 0 then match_ci c f pc' p' (len - nbytes inch) else Go pc' p'
    end
  end.
(** regexp.c:2230-2258 *)
Definition word_constituent (b : Z) : bool :=
  (128 <=? b) || ((48 <=? b) && (b <=? 57)) || ((65 <=? b) && (b <=? 90)) || ((97 <=? b) && (b <=? 122)).
Definition word_boundary (c : ctx) (p : nat) : option bool :=
  if Nat.eqb p 0 then Some true else if Nat.eqb p (stop c) then Some true else
  match char_backward (buf c) p with
  | BOob => None
  | BNull => Some false
  | Back q =>
    let nextb := byte c p in let prevb := byte c q in
    Some (if word_constituent nextb && negb (word_constituent prevb) then true
          else negb (word_constituent nextb) && word_constituent prevb)
  end.
(** regexp.c:2260-2286 *)
Definition newline (b : Z) : bool := (b =? 10) || (b =? 13).
Definition beginning_of_line (c : ctx) (p : nat) : option bool :=
  if Nat.eqb p 0 then Some true else if negb (multi c) then Some false else
  match char_backward (buf c) p with Back q => Some (newline (byte c q)) | _ => None end.
Definition end_of_line (c : ctx) (p : nat) : bool :=
  if Nat.eqb p (stop c) then true else if negb (multi c) then false else newline (byte c p).
Definition test (b : option bool) (pc p : nat) : eff := match b with None => Bad | Some true => Go pc p | Some false => Fail end.
(** the repeating instructions: one more turn, or leave *)
Inductive turn := More (p : nat) | Leave | TBad.
Fixpoint repeat_while (f : nat -> turn) (fuel p pc : nat) : eff :=
  match fuel with O => Bad | S k => match f p with More p' => repeat_while f k p' pc | Leave => Go pc p | TBad => Bad end end.
Definition turn_char (c : ctx) (p : nat) (f : Z -> bool) : turn :=
  match get c p with Oob => TBad | g => if f (charn g) then More (p + Z.to_nat (nbytes (charn g))) else Leave end.
(** regexp.c:2320-2600  rex_rec, the instructions that only look at the input; pc points after the opcode *)
Definition exec1 (c : ctx) (o : op) (pc p : nat) : eff :=
  let loop f := repeat_while (fun p => if Nat.leb (stop c) p then Leave else f p) (S (stop c - p)) p in
  match o with
  | O_MATCH => let n := Z.to_nat (arg c pc) in
               if (Z.of_nat (stop c) - Z.of_nat p <? Z.of_nat n) then Fail
               else if match_bytes c (S pc) p n then Go (S pc + n) (p + n) else Fail
  | O_MATCH1 => if Nat.eqb (stop c) p then Fail else if arg c pc =? byte c p then Go (S pc) (S p) else Fail
  | O_MATCH_CI => let n := arg c pc in
                  if (Z.of_nat (stop c) - Z.of_nat p <? n) then Fail else match_ci c (S (Z.to_nat n)) (S pc) p n
  | O_MATCH1_CI => if Nat.eqb (stop c) p then Fail
                   else if negb (nfollows (byte c p) =? 0) then Fail
                   else if arg c pc =? downcase c (byte c p) then Go (S pc) (S p) else Fail
  | O_ANY => if Nat.eqb (stop c) p then Fail else Go pc (p + step_len c p)
  | O_SET1 => if Nat.eqb (stop c) p then Fail else if 128 <=? byte c p then Fail
              else if contains (argset c pc) (byte c p) then Go (S pc) (S p) else Fail
  | O_NSET1 => if Nat.eqb (stop c) p then Fail
               else if byte c p <? 128 then (if contains (argset c pc) (byte c p) then Fail else Go (S pc) (S p))
               else Go (S pc) (p + step_len c p)
  | O_SET => if Nat.eqb (stop c) p then Fail else
             match get c p with Oob => Bad | g => if contains (argset c pc) (charn g) then Go (S pc) (p + Z.to_nat (nbytes (charn g))) else Fail end
  | O_NSET => if Nat.eqb (stop c) p then Fail else
              match get c p with Oob => Bad | g => if contains (argset c pc) (charn g) then Fail else Go (S pc) (p + Z.to_nat (nbytes (charn g))) end
  | O_BOS => if Nat.eqb p 0 then Go pc p else Fail
  | O_EOS => if Nat.eqb p (stop c) then Go pc p else Fail
  | O_BOL => test (beginning_of_line c p) pc p
  | O_EOL => test (Some (end_of_line c p)) pc p
  | O_WB => test (word_boundary c p) pc p
  | O_NWB => test (option_map negb (word_boundary c p)) pc p
  | O_FAIL => Fail
  | O_JUMP => Go (offset c pc) p
  | O_SET1R => loop (fun p => if 128 <=? byte c p then Leave else if contains (argset c pc) (byte c p) then More (S p) else Leave) (S pc)
  | O_SETR => loop (fun p => turn_char c p (contains (argset c pc))) (S pc)
  | O_NSETR => loop (fun p => turn_char c p (fun ch => negb (contains (argset c pc) ch))) (S pc)
  | O_MATCH1R => loop (fun p => if 128 <=? byte c p then Leave else if arg c pc =? byte c p then More (S p) else Leave) (S pc)
  | O_MATCHR => let n := Z.to_nat (arg c pc) in
                repeat_while (fun p => if Nat.ltb (stop c) (p + n) then Leave else if match_bytes c (S pc) p n then More (p + n) else Leave)
                             (S (stop c - p)) p (S pc + n)%nat
  | O_ANYR => loop (fun p => More (p + step_len c p)) pc
  | _ => Bad                                                (* not generated by comp, or handled in run *)
  end.
(** regexp.c:2575-2583  RE_BACKREF.  It does not look at ctx->stop. *)
Fixpoint backref (c : ctx) (p q n : nat) : option (option nat) :=
  match n with
  | O => Some (Some p)
  | S n' => match nth_error (buf c) p, nth_error (buf c) q with
            | Some a, Some b => if a =? b then backref c (S p) (S q) n' else Some None
            | _, _ => None
            end
  end.
(** how rex_rec ends: it returns (failure), or it jumps to the innermost sigsetjmp (RE_SUCCESS) *)
Inductive out := Ret (m : caps) | Jmp (last : nat) (m : caps) | Undef.
Fixpoint run (c : ctx) (fuel : nat) (pc p : nat) (m : caps) : option out :=
  match fuel with
  | O => None
  | S f =>
    match nth_error (code c) pc with
    | None => Some Undef
    | Some b =>
      match op_of b with
      | None => Some Undef
      | Some O_TRY =>
        match run c f (pc + 3)%nat p m with
        | Some (Ret m) => run c f (offset c (S pc)) p m
        | r => r
        end
      | Some O_BEGIN =>
        let g := Z.to_nat (arg c (S pc)) in
        match run c f (pc + 2)%nat p (set_start m g p) with
        | Some (Ret m') => Some (Ret (set_both m' g (m g)))
        | r => r
        end
      | Some O_END => run c f (pc + 2)%nat p (set_end m (Z.to_nat (arg c (S pc))) p)
      | Some O_SUCCESS => Some (Jmp p m)
      | Some O_ONCE =>
        match run c f (pc + 3)%nat p m with
        | Some (Jmp last m) => run c f (offset c (S pc)) last m
        | r => r
        end
      | Some O_ASSERT =>
        match run c f (pc + 3)%nat p m with
        | Some (Jmp last m) => run c f (offset c (S pc)) p m
        | r => r
        end
      | Some O_NASSERT =>
        match run c f (pc + 3)%nat p m with
        | Some (Ret m) => run c f (offset c (S pc)) p m
        | Some (Jmp _ m) => Some (Ret m)
        | r => r
        end
      | Some O_BACKREF =>
        match m (Z.to_nat (arg c (S pc))) with
        | (Some s, Some e) => match backref c p s (e - s) with
                              | None => Some Undef
                              | Some None => Some (Ret m)
                              | Some (Some p) => run c f (pc + 2)%nat p m
                              end
        | _ => Some (Ret m)
        end
      | Some o =>
        match exec1 c o (S pc) p with
        | Go pc' p' => run c f pc' p' m
        | Fail => Some (Ret m)
        | Bad => Some Undef
        end
      end
    end
  end.
(** regexp.c:2754-2783  rex *)
Inductive result := RNone | RMatch (m : caps) | RUndef.
Definition rex (c : ctx) (fuel start : nat) : option result :=
  match run c fuel O start (fun _ => (None, None)) with
  | None => None
  | Some (Ret _) => Some RNone
  | Some (Jmp _ m) => Some (RMatch m)
  | Some Undef => Some RUndef
  end.
(** regexp.c:2785-2801  skip_input *)
Fixpoint skip_input (c : ctx) (la : Z -> bool) (skip_match : bool) (fuel start : nat) : option nat :=
  match fuel with
  | O => None
  | S f =>
    if Nat.leb start (stop c) then
      match get c start with
      | Oob => None
      | g => if Bool.eqb (la (charn g)) skip_match then skip_input c la skip_match f (start + step_len c start)%nat else Some start
      end
    else Some (stop c)
  end.
(** regexp.c:2803-2879  Scm_RegExec; None: not finished, or a read out of bounds in skip_input *)
Fixpoint exec_loop (c : ctx) (rx : regexp) (fuel n start : nat) : option result :=
  match n with
  | O => None
  | S n' =>
    if Nat.leb start (stop c) then
      match rx_laset rx with
      | None =>
        match rex c fuel start with
        | Some RNone => exec_loop c rx fuel n' (start + step_len c start)%nat
        | r => r
        end
      | Some la =>
        if rx_simple rx then
          match rex c fuel start with
          | Some RNone =>
            match skip_input c la true (S (S (stop c))) start with
            | None => None
            | Some next => exec_loop c rx fuel n' (if Nat.eqb start next then next + step_len c start else next)%nat
            end
          | r => r
          end
        else
          match skip_input c la false (S (S (stop c))) start with
          | None => None
          | Some start =>
            match rex c fuel start with
            | Some RNone => exec_loop c rx fuel n' (start + step_len c start)%nat
            | r => r
            end
          end
      end
    else Some RNone
  end.
Definition mkctx (rx : regexp) (down : Z -> Z) (mem : list Z) (size : nat) : ctx :=
  {| code := rx_code rx; sets := rx_sets rx; multi := rx_multi rx; buf := mem; stop := size; downcase := down |}.
Definition regexec (rx : regexp) (down : Z -> Z) (mem : list Z) (size fuel : nat) : option result :=
  let c := mkctx rx down mem size in
  if rx_anchored rx then rex c fuel O else exec_loop c rx fuel (S (S size)) O.
