(** syntax-rules: src/macro.c.  Not modelled: head-match mode, source information attributes,
    the checks of the literal list.  Vectors are written with the list of their elements.
    Identifiers are numbers; the tests that depend on environments are parameters. *)
From Coq Require Import ZArith List Bool Arith.
From Verif Require Import Outcome.
Import ListNotations.

(** Scheme data that make up forms, patterns and templates *)
Inductive datum := Nil | Pair (a d : datum) | Sym (s : Z) | Atom (z : Z) | Vec (l : datum).
(** compiled patterns and templates: macro.c ScmObj with PVREF objects and ScmSyntaxPattern
    nodes (macroP.h).  [CWild] is the underscore. *)
Definition pvref := (nat * nat)%type.
Inductive cp :=
| CNil | CPair (a d : cp) | CSym (s : Z) | CAtom (z : Z) | CVec (l : cp) | CWild
| CRef (level count : nat)
| CEll (level : nat) (vars : list pvref) (sub : cp) (following : nat).
(** the value of a pattern variable: an object, or a list of values (macro.c:735-747) *)
Inductive tree := Leaf (d : datum) | Node (l : list tree).

Section Macro.
(** macro.c:408-418 isEllipsis with ctx->ellipsis not #f: the default or the given ellipsis *)
Variable ell0 : Z -> bool.
(** Scm__ERCompare(form, SCM_SYM_UNDERBAR) *)
Variable under : Z -> bool.
(** ctx.literals *)
Variable lits : list Z.
(** Scm__ERCompare of a literal and a form in the environment of the macro use *)
Variable same : Z -> datum -> bool.
(** macro.c:447-462 rename_variable during one expansion: the association list makes it a
    function of the symbol *)
Variable rename : Z -> Z.

Definition is_lit (s : Z) : bool := existsb (Z.eqb s) lits.
(** macro.c:655-666: a literal that is the ellipsis disables it *)
Definition ell (s : Z) : bool := negb (existsb ell0 lits) && ell0 s.
Definition ell_datum (d : datum) : bool := match d with Sym s => ell s | _ => false end.
(** macro.c:420-421 ELLIPSIS_FOLLOWING, of the cdr *)
Definition ell_next (d : datum) : bool := match d with Pair e _ => ell_datum e | _ => false end.

(** ** The compiler *)
(** PatternContext: pvars, pvcnt, maxlev *)
Record ctx := Ctx { pvars : list (Z * pvref); pvcnt : nat; maxlev : nat }.
Definition MAX := 255.
Fixpoint assq (s : Z) (l : list (Z * pvref)) : option pvref :=
  match l with [] => None | (k, v) :: t => if Z.eqb s k then Some v else assq s t end.
(** macro.c:307-328 add_pvar *)
Definition add_pvar (c : ctx) (level : nat) (s : Z) : res (cp * list pvref * ctx) :=
  if MAX <? level then Err
  else if MAX <? pvcnt c then Err
  else match assq s (pvars c) with
       | Some _ => Err
       | None => Ok (CRef level (pvcnt c), [(level, pvcnt c)], Ctx ((s, (level, pvcnt c)) :: pvars c) (S (pvcnt c)) (maxlev c))
       end.
(** macro.c:533-534 *)
Definition deepen (c : ctx) (level : nat) : ctx :=
  Ctx (pvars c) (pvcnt c) (if maxlev c <? level then level + 1 else maxlev c).
(** macro.c:525-528: the pairs after the ellipsis *)
Fixpoint pairs (d : datum) : nat := match d with Pair _ t => S (pairs t) | _ => O end.
(** macro.c:472-603 compile_rule1 of a pattern.  [top]: at the beginning of a list; [seen]:
    ellipsis_seen.  The second result is what is added to spat->vars. *)
Fixpoint cpat (top seen : bool) (level : nat) (form : datum) (c : ctx) : res (cp * list pvref * ctx) :=
  match form with
  | Pair a d =>
      let plain :=
        do x <- cpat true false level a c;
        let '(ca, va, c1) := x in
        do y <- cpat false seen level d c1;
        let '(cd, vd, c2) := y in
        Ok (CPair ca cd, va ++ vd, c2) in
      match d with
      | Pair e d' =>
          if top && ell_datum a then Err
          else if ell_datum e then
            if seen then Err
            else
              do x <- cpat true false (S level) a (deepen c (S level));
              let '(ca, va, c1) := x in
              do y <- cpat false true level d' c1;
              let '(cd, vd, c2) := y in
              Ok (CPair (CEll (S level) va ca (pairs d')) cd, va ++ vd, c2)
          else plain
      | _ => plain
      end
  | Vec l => do x <- cpat true false level l c; let '(cl, vl, c1) := x in Ok (CVec cl, vl, c1)
  | Sym s =>
      if ell s then Err
      else if is_lit s then Ok (CSym s, [], c)
      else if under s then Ok (CWild, [], c)
      else add_pvar c level s
  | Nil => Ok (CNil, [], c)
  | Atom z => Ok (CAtom z, [], c)
  end.
(** macro.c:536-548: n nested ScmSyntaxPattern nodes *)
Fixpoint nest (n : nat) (level : nat) (vars : list pvref) (sub : cp) : cp :=
  match n with
  | O => sub
  | S n' => CEll (S level) (if n' =? 0 then vars else []) (nest n' (S level) vars sub) 0
  end.
Definition outermost (n level : nat) (vars : list pvref) (sub : cp) : cp :=
  match nest n level vars sub with CEll l _ s f => CEll l vars s f | x => x end.
(** macro.c:529-537: the ellipses that follow *)
Fixpoint ellipses (d : datum) : nat := match d with Pair e t => if ell_datum e then S (ellipses t) else O | _ => O end.
(** macro.c:472-603 compile_rule1 of a template.  [on]: ctx->ellipsis is not #f; [skip]:
    ellipses that have been consumed already. *)
Fixpoint ctmpl (on top : bool) (skip : nat) (level : nat) (form : datum) (c : ctx) {struct form} : res (cp * list pvref * ctx) :=
  match form with
  | Pair a d =>
      match skip with
      | S k => ctmpl on false k level d c
      | O =>
          match d with
          | Pair t _ =>
              if on && top && ell_datum a then ctmpl false true O level t c
              else
                let n := if on then ellipses d else O in
                if 0 <? n then
                  do x <- ctmpl on true O (level + n) a (deepen c (level + n));
                  let '(ca, va, c1) := x in
                  if existsb (fun v => S level <=? fst v) va then
                    do y <- ctmpl on false n level d c1;
                    let '(cd, vd, c2) := y in
                    Ok (CPair (outermost n level va ca) cd, va ++ vd, c2)
                  else Err
                else
                  do x <- ctmpl on true O level a c;
                  let '(ca, va, c1) := x in
                  do y <- ctmpl on false O level d c1;
                  let '(cd, vd, c2) := y in
                  Ok (CPair ca cd, va ++ vd, c2)
          | _ =>
              do x <- ctmpl on true O level a c;
              let '(ca, va, c1) := x in
              do y <- ctmpl on false O level d c1;
              let '(cd, vd, c2) := y in
              Ok (CPair ca cd, va ++ vd, c2)
          end
      end
  | Vec l => do x <- ctmpl on true O level l c; let '(cl, vl, c1) := x in Ok (CVec cl, vl, c1)
  | Sym s =>
      if on && ell s then Err
      else if is_lit s then Ok (CSym s, [], c)
      else match assq s (pvars c) with
           | Some (l, n) => if level <? l then Err else Ok (CRef l n, [(l, n)], c)
           | None => Ok (CSym s, [], c)
           end
  | Nil => Ok (CNil, [], c)
  | Atom z => Ok (CAtom z, [], c)
  end.
(** ScmSyntaxRuleBranch: pattern ([None]: the underscore, for an identifier macro), template,
    maxLevel *)
Record rule := Rule { r_pattern : option cp; r_template : cp; r_maxlev : nat }.
(** macro.c:633-726 compile_rules, one rule: a pattern with its head, and a template *)
Definition compile_rule (pattern template : datum) : res rule :=
  do x <- match pattern with
          | Pair _ p => do x <- cpat true false 0 p (Ctx [] 0 0); Ok (Some (fst (fst x)), snd x)
          | Sym _ => Ok (None, Ctx [] 0 0)
          | _ => Err
          end;
  do y <- ctmpl true true O 0 template (snd x);
  Ok (Rule (fst x) (fst (fst y)) (maxlev (snd y))).
Fixpoint compile_rules (rules : list (datum * datum)) : res (list rule) :=
  match rules with
  | [] => Ok []
  | (p, t) :: rest => do r <- compile_rule p t; do rs <- compile_rules rest; Ok (r :: rs)
  end.

(** ** The matcher *)
(** MatchVar; [sprout] is the place of the sprout in [root]: the positions in the nested lists *)
Record mvar := MVar { branch : list datum; sprout : list nat; root : tree }.
Definition matchvec := nat -> mvar.
(** macro.c:759-767 init_matchvec *)
Definition init_matchvec : matchvec := fun _ => MVar [] [] (Node []).
Definition upd (mv : matchvec) (n : nat) (v : mvar) : matchvec := fun i => if i =? n then v else mv i.
Fixpoint removelast_ {A} (l : list A) : list A := match l with [] | [_] => [] | a :: t => a :: removelast_ t end.
(** macro.c:808-837 grow_branch; the last pair of each list is followed down, a list that is
    still empty gets its first sprout *)
Fixpoint grow (level : nat) (t : list tree) : list tree * list nat :=
  match level with
  | O | 1%nat => (t, [])
  | S l =>
      match l with
      | 1%nat => (t ++ [Node []], [length t])
      | _ =>
          let t := match t with [] => [Node []] | _ => t end in
          match last t (Node []) with
          | Node ts => let (ts', p) := grow l ts in (removelast_ t ++ [Node ts'], (length t - 1)%nat :: p)
          | Leaf _ => (t, [])
          end
      end
  end.
Definition grow_branch (v : mvar) (level : nat) : mvar :=
  if level <=? 1 then v
  else match root v with
       | Node t => let (t', p) := grow level t in MVar (branch v) p (Node t')
       | Leaf _ => v
       end.
(** macro.c:839-847 enter_subpattern *)
Definition enter (level : nat) (vars : list pvref) (mv : matchvec) : matchvec :=
  fold_left (fun mv v => upd mv (snd v) (grow_branch (mv (snd v)) level)) vars mv.
(** SCM_SET_CAR of the sprout *)
Fixpoint set_at (p : list nat) (x : tree) (t : tree) : tree :=
  match p, t with
  | [], _ => x
  | i :: p', Node l => Node (firstn i l ++ match skipn i l with [] => [] | y :: r => set_at p' x y :: r end)
  | _, Leaf _ => t
  end.
(** macro.c:849-865 exit_subpattern.  Scm_ReverseX destroys the branch, which is not used
    again at level 1 *)
Definition exit_var (level : nat) (v : mvar) : mvar :=
  if level =? 1 then MVar [] (sprout v) (Node (map Leaf (rev (branch v))))
  else MVar [] (sprout v) (set_at (sprout v) (Node (map Leaf (rev (branch v)))) (root v)).
Definition exit (level : nat) (vars : list pvref) (mv : matchvec) : matchvec :=
  fold_left (fun mv v => if fst v =? level then upd mv (snd v) (exit_var level (mv (snd v))) else mv) vars mv.
(** macro.c:868-876 match_insert *)
Definition insert (level count : nat) (d : datum) (mv : matchvec) : matchvec :=
  let v := mv count in
  upd mv count (if level =? 0 then MVar (branch v) (sprout v) (Leaf d) else MVar (d :: branch v) (sprout v) (root v)).
(** Scm_EqualP on these data *)
Fixpoint eqd (a b : datum) : bool :=
  match a, b with
  | Nil, Nil => true
  | Pair a d, Pair a' d' => eqd a a' && eqd d d'
  | Sym s, Sym s' => Z.eqb s s'
  | Atom z, Atom z' => Z.eqb z z'
  | Vec l, Vec l' => eqd l l'
  | _, _ => false
  end.
Fixpoint clen (p : cp) : nat := match p with CPair _ t => S (clen t) | _ => O end.
Fixpoint has_ell (p : cp) : bool := match p with CPair (CEll _ _ _ _) _ => true | CPair _ t => has_ell t | _ => false end.
(** macro.c:904-972 match_synrule; [None]: no match.  [vec]: the elements of a vector, where
    an ellipsis without elements for it ends the match at once (macro.c:957-968). *)
Fixpoint mtch (vec : bool) (p : cp) (form : datum) (mv : matchvec) {struct p} : option matchvec :=
  match p with
  | CRef level count => Some (insert level count form mv)
  | CWild => Some mv
  | CSym s => if same s form then Some mv else None
  | CPair (CEll level vars sub following) rest =>
      if vec && eqd form Nil then Some mv
      else
        (* macro.c:878-898 match_subpattern *)
        match
          (fix iter (n : nat) (form : datum) (mv : matchvec) : option (datum * matchvec) :=
             match n with
             | O => Some (form, mv)
             | S n' => match form with
                       | Pair f g => match mtch false sub f mv with Some mv' => iter n' g mv' | None => None end
                       | _ => None
                       end
             end) (pairs form - following)%nat form (enter level vars mv)
        with
        | Some (form', mv') => mtch false rest form' (exit level vars mv')
        | None => None
        end
  | CPair elt rest =>
      match form with
      | Pair f g => match mtch false elt f mv with Some mv' => mtch vec rest g mv' | None => None end
      | _ => None
      end
  | CVec l =>
      match form with
      | Vec fl =>
          let plen := clen l in
          let flen := pairs fl in
          if plen =? 0 then (if flen =? 0 then Some mv else None)
          else if (negb (has_ell l) && negb (plen =? flen)) || (has_ell l && (flen <? plen - 1)) then None
          else mtch true l fl mv
      | _ => None
      end
  | CNil => if eqd form Nil then Some mv else None
  | CAtom z => if eqd form (Atom z) then Some mv else None
  | CEll _ _ _ _ => None
  end.

(** ** The expander *)
Inductive rval := Val (d : datum) | Unbound (exlev : nat).
(** macro.c:769-788 get_pvref_value *)
Fixpoint descend (t : tree) (i n : nat) (indices : nat -> nat) : tree + nat :=
  match n with
  | O => inl t
  | S n' => match t with
            | Node l => match nth_error l (indices i) with Some t' => descend t' (S i) n' indices | None => inr i end
            | Leaf _ => inr i
            end
  end.
(** the value of a variable as a datum: at its own level it is a leaf *)
Fixpoint tree_datum (t : tree) : datum :=
  match t with Leaf d => d | Node l => fold_right (fun t r => Pair (tree_datum t) r) Nil l end.
Definition get_pvref_value (mv : matchvec) (level count : nat) (indices : nat -> nat) : rval :=
  match descend (root (mv count)) 1 level indices with inl t => Val (tree_datum t) | inr e => Unbound e end.
Definition set_index (indices : nat -> nat) (i v : nat) : nat -> nat := fun k => if k =? i then v else indices k.
Fixpoint dappend (a b : datum) : datum := match a with Pair x t => Pair x (dappend t b) | _ => b end.
Definition is_ell (p : cp) : bool := match p with CEll _ _ _ _ => true | _ => false end.
(** macro.c:984-1058 realize_template_rec.  [fuel] bounds the turns of each loop, [size] is
    the size of the array of indices. *)
Fixpoint realize (fuel size : nat) (mv : matchvec) (level : nat) (indices : nat -> nat) (t : cp) {struct t} : res rval :=
  match t with
  | CPair e rest =>
      do r <- realize fuel size mv level indices e;
      match r with
      | Unbound _ => Ok r
      | Val d =>
          do r2 <- realize fuel size mv level indices rest;
          match r2 with
          | Unbound _ => Ok r2
          | Val d2 => Ok (Val (if is_ell e then dappend d d2 else Pair d d2))
          end
      end
  | CRef l n => Ok (get_pvref_value mv l n indices)
  | CEll lev _ sub _ =>
      if size <=? S level then UB
      else
        (fix loop (n i : nat) (acc : datum) : res rval :=
           match n with
           | O => UB
           | S n' =>
               do r <- realize fuel size mv (S level) (set_index indices (S level) i) sub;
               match r with
               | Unbound e => Ok (if e <? lev then r else Val acc)
               | Val d => loop n' (S i) (dappend acc (if is_ell sub then d else Pair d Nil))
               end
           end) fuel O Nil
  | CVec l =>
      do r <- realize fuel size mv level indices l;
      Ok (match r with Unbound _ => r | Val d => Val (Vec d) end)
  | CSym s => Ok (Val (Sym (rename s)))
  | CAtom z => Ok (Val (Atom z))
  | CNil => Ok (Val Nil)
  | CWild => Ok (Val Nil)
  end.
Definition DEFAULT_MAX_LEVEL := 10%nat.
(** macro.c:1064-1080 realize_template *)
Definition realize_template (fuel : nat) (r : rule) (mv : matchvec) : res datum :=
  let size := if DEFAULT_MAX_LEVEL <? r_maxlev r then S (r_maxlev r) else DEFAULT_MAX_LEVEL in
  if size <=? r_maxlev r then UB
  else
    do v <- realize fuel size mv O (fun _ => O) (r_template r);
    match v with Val d => Ok d | Unbound _ => UB end.
(** macro.c:1082-1130 synrule_expand *)
Fixpoint expand (fuel : nat) (rules : list rule) (form : datum) : res datum :=
  match rules with
  | [] => Err
  | r :: rest =>
      match (match r_pattern r with
             | None => Some init_matchvec
             | Some p => match form with Pair _ f => mtch false p f init_matchvec | _ => None end
             end) with
      | Some mv => realize_template fuel r mv
      | None => expand fuel rest form
      end
  end.
End Macro.
