(** What R7RS 4.3.2 (with SRFI 149 for repeated ellipses) says about syntax-rules.  Only the
    types [datum] and [tree] are taken from the model; the identifiers are told apart by
    predicates: [ell] the ellipsis, [lit] the literals, [under] the underscore, [same] the
    comparison of a literal with a form. *)
From Coq Require Import ZArith List Bool Arith.
From Verif Require Import SynModel.
Import ListNotations.

(** the tree bound to a variable *)
Fixpoint lookup (s : Z) (b : list (Z * tree)) : option tree :=
  match b with [] => None | (k, v) :: r => if Z.eqb s k then Some v else lookup s r end.
(** the list [fs] with the tail [g] *)
Fixpoint list_tail (fs : list datum) (g : datum) : datum :=
  match fs with [] => g | f :: r => Pair f (list_tail r g) end.
(** the number of elements of a list, proper or not *)
Fixpoint count (d : datum) : nat := match d with Pair _ t => S (count t) | _ => 0 end.
(** every vector is a sequence of elements, not an improper list *)
Fixpoint proper (d : datum) : Prop := match d with Nil => True | Pair _ t => proper t | _ => False end.
Fixpoint wf (d : datum) : Prop :=
  match d with Pair a t => wf a /\ wf t | Vec l => proper l /\ wf l | _ => True end.

(** R7RS: an identifier is a literal before it is the ellipsis, so that with the ellipsis among
    the literals there is none *)
Definition literal (lits : list Z) (s : Z) : bool := existsb (Z.eqb s) lits.
Definition ellipsis (ell0 : Z -> bool) (lits : list Z) (s : Z) : bool := negb (existsb ell0 lits) && ell0 s.

Section Spec.
Variables ell lit under : Z -> bool.
Variable same : Z -> datum -> bool.
Variable rename : Z -> Z.

(** ** Patterns *)
(** the variables of a pattern *)
Fixpoint svars (p : datum) : list Z :=
  match p with
  | Sym s => if ell s || lit s || under s then [] else [s]
  | Pair a d => svars a ++ svars d
  | Vec l => svars l
  | _ => []
  end.
(** the sequences bound to the variables of a pattern that is followed by an ellipsis *)
Definition collect (vs : list Z) (bs : list (list (Z * tree))) : list (Z * tree) :=
  map (fun v => (v, Node (map (fun b => match lookup v b with Some t => t | None => Node [] end) bs))) vs.
(** the form [f] matches the pattern [p] with the bindings [b] *)
Fixpoint matches (p f : datum) (b : list (Z * tree)) {struct p} : Prop :=
  match p with
  | Sym s =>
      if lit s then same s f = true /\ b = []
      else if under s then b = []
      else b = [(s, Leaf f)]
  | Nil => f = Nil /\ b = []
  | Atom z => f = Atom z /\ b = []
  | Vec l => exists fl, f = Vec fl /\ matches l fl b
  | Pair a d =>
      let plain := exists f1 f2 b1 b2, f = Pair f1 f2 /\ matches a f1 b1 /\ matches d f2 b2 /\ b = b1 ++ b2 in
      match d with
      | Pair (Sym e) q =>
          if ell e then
            exists fs g bs b2,
              f = list_tail fs g /\ count g = count q /\ Forall2 (matches a) fs bs /\ matches q g b2
              /\ b = collect (svars a) bs ++ b2
          else plain
      | _ => plain
      end
  end.

(** ** Templates *)
(** the symbols of a template.  [on]: ellipses have their meaning; [top]: at the beginning of
    a list, where (<ellipsis> <template>) escapes *)
Fixpoint tvars (on top : bool) (t : datum) : list Z :=
  match t with
  | Sym s => [s]
  | Pair a d =>
      let both := tvars on true a ++ tvars on false d in
      match a, d with
      | Sym e, Pair t _ => if on && top && ell e then tvars false true t else both
      | _, _ => both
      end
  | Vec l => tvars on true l
  | _ => []
  end.
(** the bindings for the i-th repetition *)
Definition slice (i : nat) (b : list (Z * tree)) : list (Z * tree) :=
  map (fun kv => (fst kv, match snd kv with Node l => nth i l (Node []) | t => t end)) b.
(** n ellipses and then [q], which does not begin with one *)
Inductive after : nat -> datum -> datum -> Prop :=
| after_0 q : (forall e r, q = Pair (Sym e) r -> ell e = false) -> after 0 q q
| after_S n e d q : ell e = true -> after n d q -> after (S n) (Pair (Sym e) d) q.
(** [d] is the instance of the template [t] under [b]; [rep]: of a template followed by n
    ellipses, the elements *)
Inductive inst : bool -> bool -> datum -> list (Z * tree) -> datum -> Prop :=
| inst_var on top s b d : lookup s b = Some (Leaf d) -> inst on top (Sym s) b d
| inst_free on top s b : lookup s b = None -> inst on top (Sym s) b (Sym (rename s))
| inst_nil on top b : inst on top Nil b Nil
| inst_atom on top z b : inst on top (Atom z) b (Atom z)
| inst_vec on top l b d : inst on true l b d -> inst on top (Vec l) b (Vec d)
| inst_escape e t b d : ell e = true -> inst false true t b d -> inst true true (Pair (Sym e) (Pair t Nil)) b d
| inst_pair on top a d b d1 d2 :
    (on = true -> after 0 d d) ->
    (on = true -> top = true -> forall e, a = Sym e -> ell e = false) ->
    inst on true a b d1 -> inst on false d b d2 -> inst on top (Pair a d) b (Pair d1 d2)
| inst_ellipsis top a d b n q ds d2 :
    after (S n) d q -> (top = true -> forall e, a = Sym e -> ell e = false) ->
    rep (S n) a b ds -> inst true false q b d2 -> inst true top (Pair a d) b (list_tail ds d2)
with rep : nat -> datum -> list (Z * tree) -> list datum -> Prop :=
| rep_0 a b d : inst true true a b d -> rep 0 a b [d]
| rep_S n a b m dss :
    (* some variable of the template is bound to a sequence, and all sequences have m elements *)
    (exists s l, In s (tvars true true a) /\ lookup s b = Some (Node l)) ->
    (forall s l, In s (tvars true true a) -> lookup s b = Some (Node l) -> length l = m) ->
    length dss = m ->
    (forall i, i < m -> rep n a (slice i b) (nth i dss [])) ->
    rep (S n) a b (concat dss).

(** ** Rules *)
(** the use [form] of a macro matches the pattern of a rule *)
Definition rule_matches (pattern form : datum) (b : list (Z * tree)) : Prop :=
  match pattern with
  | Pair _ p => exists h f, form = Pair h f /\ matches p f b
  | _ => b = []
  end.
(** the first rule whose pattern matches gives its template *)
Inductive first_match : list (datum * datum) -> datum -> datum -> list (Z * tree) -> Prop :=
| fm_here p t rest form b : rule_matches p form b -> first_match ((p, t) :: rest) form t b
| fm_later p t rest form t' b :
    (forall b', ~ rule_matches p form b') -> first_match rest form t' b -> first_match ((p, t) :: rest) form t' b.

(** how deep ellipses are nested *)
Fixpoint run (d : datum) : nat := match d with Pair (Sym e) t => if ell e then S (run t) else 0 | _ => 0 end.
Fixpoint nesting (d : datum) : nat :=
  match d with
  | Pair a t => Nat.max (run t + nesting a) (nesting t)
  | Vec l => nesting l
  | _ => 0
  end.

(** ** What the implementation does not get right, see the refuted statements *)
(** a pattern ends with an ellipsis *)
Fixpoint ends_ell (p : datum) : bool :=
  match p with
  | Pair _ d => match d with Pair (Sym e) Nil => ell e | _ => ends_ell d end
  | _ => false
  end.
(** no vector that ends with an ellipsis within a pattern that is repeated *)
Fixpoint vecs_ok (inner : bool) (p : datum) : Prop :=
  match p with
  | Pair a d =>
      match d with
      | Pair (Sym e) q => if ell e then vecs_ok true a /\ vecs_ok inner q else vecs_ok inner a /\ vecs_ok inner d
      | _ => vecs_ok inner a /\ vecs_ok inner d
      end
  | Vec l => (inner = true -> ends_ell l = false) /\ vecs_ok inner l
  | _ => True
  end.
(** the rules that the theorem is about *)
Definition covered (p t : datum) : Prop :=
  match p with Pair _ q => wf q /\ vecs_ok false q /\ nesting q <= 8 | _ => True end /\ nesting t <= 8.
End Spec.
