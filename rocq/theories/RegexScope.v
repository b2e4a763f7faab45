(** The regular expressions the theorems of RegexProps are about.  Definitions on the syntax only. *)
From Coq Require Import List ZArith Bool.
From Verif Require Import RegexModel RegexSpec.
Import ListNotations.
Local Open Scope nat_scope.

(** A charset without the LARGE flag has only ASCII members (src/char.c keeps this, see CharsetModel). *)
Definition set_ok (s : cset) : bool := large s || forallb (fun '(lo, hi) => (hi <? 128)%Z) (ranges s).
(** Matching nothing (an over-approximation: assertions count as able to). *)
Fixpoint nullable (r : re) : bool :=
  match r with
  | Chr _ | CSet _ | Comp _ | Any => false
  | Seq l | Cased l | Grp _ l => forallb nullable l
  | Alt l => existsb nullable l
  | Rep _ m n l => Nat.eqb m 0 || forallb nullable l
  | _ => true
  end.
Fixpoint nogrp (r : re) : bool :=
  match r with
  | Grp _ _ => false
  | Seq l | Cased l | Uncase l | Alt l | Rep _ _ _ l | Once l | Look _ l => forallb nogrp l
  | _ => true
  end.
(** What the code generator handles: characters and classes that exist, $ where it means the end of the line, loops that
    consume something, no groups inside lookahead. *)
Fixpoint wf (S : list cset) (mu lastp : bool) (r : re) {struct r} : bool :=
  let wfs := fix wfs (lastp : bool) (l : list re) : bool := match l with [] => true | x :: l' => wf S mu (lastp && is_nil l') x && wfs lastp l' end in
  match r with
  | Chr ch => (0 <=? ch)%Z && (ch <? 2 ^ 31)%Z
  | CSet k | Comp k => Nat.ltb k 256 && set_ok (getset S k)
  | Any | Bos | Eos | Bol | Wb | Nwb => true
  | Eol => mu || lastp
  | Seq l | Cased l => wfs lastp l
  | Alt l => forallb (wf S mu lastp) l
  | Rep k m n l => forallb (wf S mu false) l && match n with Some n' => Nat.leb m n' | None => negb (forallb nullable l) end
  | Grp g l => Nat.ltb g 256 && wfs lastp l
  | Look _ l => wfs true l && forallb nogrp l
  | Uncase _ | Once _ | Backref _ => false
  end.
Definition wfs S mu := fix wfs (lastp : bool) (l : list re) : bool := match l with [] => true | x :: l' => wf S mu (lastp && is_nil l') x && wfs lastp l' end.
(** No group inside a group with the same number. *)
Fixpoint nest (gs : list nat) (r : re) : bool :=
  match r with
  | Grp g l => negb (existsb (Nat.eqb g) gs) && forallb (nest (g :: gs)) l
  | Seq l | Cased l | Alt l | Rep _ _ _ l => forallb (nest gs) l
  | _ => true
  end.
(** The groups with their bodies. *)
Fixpoint groups (r : re) : list (nat * list re) :=
  match r with
  | Grp g l => (g, l) :: flat_map groups l
  | Seq l | Cased l | Alt l | Rep _ _ _ l => flat_map groups l
  | _ => []
  end.
(** The characters and classes of an expression. *)
Fixpoint atoms (r : re) : list re :=
  match r with
  | Chr _ | CSet _ | Comp _ => [r]
  | Seq l | Cased l | Uncase l | Alt l | Rep _ _ _ l | Grp _ l | Once l | Look _ l => flat_map atoms l
  | _ => []
  end.
(** Expressions that are nothing but nested empty sequences, and a sequence without the parentheses. *)
Fixpoint vanish (r : re) : bool := match r with Seq l => forallb vanish l | Rep Greedy _ _ l => forallb vanish l | _ => false end.
Fixpoint flat (r : re) : list re := match r with Seq l => flat_map flat l | _ => if vanish r then [] else [r] end.
(** The characters or classes x such that x* , x+ or x{m,} can be the last thing an expression matches. *)
Definition is_atom (r : re) : bool := match r with Chr _ | CSet _ | Comp _ | Any => true | _ => false end.
Fixpoint trail (r : re) : list re :=
  let trails := fix trails (l : list re) : list re := match l with [] => [] | x :: l' => if forallb vanish l' then trail x ++ trails l' else trails l' end in
  match r with
  | Seq l | Cased l | Grp _ l => trails l
  | Alt l => flat_map trail l
  | Rep _ _ n l => (match n, flat_map flat l with None, [x] => if is_atom x then [x] else [] | _, _ => [] end) ++ trails l
  | _ => []
  end.
Definition trails := fix trails (l : list re) : list re := match l with [] => [] | x :: l' => if forallb vanish l' then trail x ++ trails l' else trails l' end.
(** The first thing a sequence matches, when that is a single character or class. *)
Fixpoint head (r : re) : option re :=
  match r with
  | Chr _ | CSet _ | Comp _ => Some r
  | Seq (x :: _) | Cased (x :: _) | Grp _ (x :: _) => head x
  | _ => None
  end.
(** No character is in both classes (an under-approximation). *)
Definition apart (S : list cset) (x y : re) : bool :=
  match x, y with
  | Chr a, Chr b => negb (a =? b)%Z
  | Chr a, CSet k | CSet k, Chr a => negb (contains (getset S k) a)
  | Chr a, Comp k | Comp k, Chr a => contains (getset S k) a
  | CSet k, CSet k' => disjoint (getset S k) (getset S k')
  | CSet k, Comp k' | Comp k', CSet k => Nat.eqb k k'
  | _, _ => false
  end.
(** What the optimizer handles.  The source has no loops without backtracking.  When a loop can run twice, an unbounded
    loop at the end of its body is over characters the body cannot start with.  A reluctant loop, and a loop that is an
    alternative by itself ([bare]), has as its body one element, not an alternative. *)
Definition not_alt (r : re) : bool := match r with Alt _ => false | _ => true end.
Definition twice (n : option nat) : bool := match n with Some n' => Nat.ltb 1 n' | None => true end.
Fixpoint src (S : list cset) (bare : bool) (r : re) {struct r} : bool :=
  match r with
  | Seq l | Cased l | Grp _ l | Look _ l => forallb (src S false) l
  | Alt l => forallb (src S true) l
  | Rep k m n l =>
    match k with While => false | Greedy => negb bare || Nat.eqb (length l) 1 && forallb not_alt l | Lazy => Nat.eqb (length l) 1 && forallb not_alt l end &&
    forallb (src S false) l && match n with Some n' => Nat.leb m n' | None => true end &&
    (negb (twice n) || is_nil (trails l) || match l with b :: _ => match head b with Some b => forallb (fun x => apart S x b) (trails l) | None => false end | [] => true end)
  | Uncase _ | Once _ | Backref _ => false
  | _ => true
  end.
(** The optimizer takes [^...] and [...] for disjoint when some character is in both sets; this is right only if all are. *)
Definition classes_ok (S : list cset) (l : list re) : Prop :=
  forall k k', In (Comp k) (flat_map atoms l) -> In (CSet k') (flat_map atoms l) ->
    (forall c, in_class S k c -> ~ in_class S k' c) \/ (forall c, in_class S k' c -> in_class S k c).
