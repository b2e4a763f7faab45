(** util.lcs: Myers' longest common subsequence (lib/util/lcs.scm). eq is a pure predicate.
    Sequences are lists (the procedures convert them); None is an error or a loop that does not end. *)
From Coq Require Import List Bool Arith ZArith.
Import ListNotations.
Local Open Scope Z_scope.

Section L.
Context {A : Type}.
Variable eq : A -> A -> bool.
(** V_d, V_r, V_l at one index *)
Record ent := { ex : Z; el : Z; er : list (A * Z * Z) }.
Definition vec := Z -> ent.
Definition upd (V : vec) i e : vec := fun j => if j =? i then e else V j.
Definition nthZ (l : list A) (i : Z) : option A := if i <? 0 then None else nth_error l (Z.to_nat i).
Section AB.
Variables a b : list A.
Let N := Z.of_nat (length a).
Let M := Z.of_nat (length b).
Let MN := N + M.
(** lcs.scm:62-73  vd, vr, vl: the vectors have 2(M+N)+1 elements *)
Definition vget (V : vec) i : option ent := if (- MN <=? i) && (i <=? MN) then Some (V i) else None.
Definition vset (V : vec) i e : option vec := if (- MN <=? i) && (i <=? MN) then Some (upd V i e) else None.
(** lcs.scm:99-107  xy-loop *)
Fixpoint xyloop (fuel : nat) (x y l : Z) r : option (Z * Z * Z * list (A * Z * Z)) :=
  match fuel with
  | O => None
  | S f => if N <=? x then Some (x, y, l, r)
           else if M <=? y then Some (x, y, l, r)
           else match nthZ a x, nthZ b y with
                | Some e, Some e' => if eq e e' then xyloop f (x + 1) (y + 1) (l + 1) ((e, x, y) :: r) else Some (x, y, l, r)
                | _, _ => None
                end
  end.
(** lcs.scm:93-98: where the path comes from *)
Definition from (V : vec) (d k : Z) : option (Z * Z * list (A * Z * Z)) :=
  let up := match vget V (k + 1) with Some e => Some (ex e, el e, er e) | None => None end in
  let left := match vget V (k - 1) with Some e => Some (ex e + 1, el e, er e) | None => None end in
  if k =? - d then up
  else if k =? d then left
  else match vget V (k - 1), vget V (k + 1) with
       | Some e1, Some e2 => if ex e1 <? ex e2 then up else left
       | _, _ => None
       end.
(** lcs.scm:90-113  k-loop: true when finish is called *)
Fixpoint kloop (fuel : nat) (d k : Z) (V : vec) : option (bool * vec) :=
  match fuel with
  | O => None
  | S f =>
      if d <? k then Some (false, V)
      else match from V d k with
           | None => None
           | Some (x0, l0, r0) =>
               match xyloop (S (length a)) x0 (x0 - k) l0 r0 with
               | None => None
               | Some (x, y, l, r) =>
                   match vset V k {| ex := x; el := l; er := r |} with
                   | None => None
                   | Some V' => if (N <=? x) && (M <=? y) then Some (true, V') else kloop f d (k + 2) V'
                   end
               end
           end
  end.
(** lcs.scm:75-81  finish *)
Definition finish (V : vec) : Z * list (A * Z * Z) :=
  let '(m, r) := fold_left (fun '(m, r) i => if m <? el (V i) then (el (V i), er (V i)) else (m, r))
                   (map (fun n => Z.of_nat n - MN) (seq 0 (Z.to_nat (2 * MN + 1)))) (0, []) in
  (m, rev r).
(** lcs.scm:83-92  d-loop *)
Fixpoint dloop (fuel : nat) (d : Z) (V : vec) : option (Z * list (A * Z * Z)) :=
  match fuel with
  | O => None
  | S f => if MN <? d then None
           else match kloop (S (S (Z.to_nat d))) d (- d) V with
                | None => None
                | Some (true, V') => Some (finish V')
                | Some (false, V') => dloop f (d + 1) V'
                end
  end.
(** lcs.scm:61-119  lcs-with-positions *)
Definition lcs_with_positions : option (Z * list (A * Z * Z)) :=
  if MN =? 0 then Some (0, [])
  else dloop (S (S (Z.to_nat MN))) 0 (fun _ => {| ex := 0; el := 0; er := [] |}).
(** lcs.scm:122-123  lcs *)
Definition lcs : option (list A) :=
  match lcs_with_positions with Some (_, l) => Some (map (fun t => fst (fst t)) l) | None => None end.
End AB.
(** split-at: None is the error for a list that is too short *)
Definition split_at (l : list A) (n : Z) : option (list A * list A) :=
  if (n <? 0) || (Z.of_nat (length l) <? n) then None else Some (firstn (Z.to_nat n) l, skipn (Z.to_nat n) l).
Definition cdr (l : list A) : option (list A) := match l with [] => None | _ :: r => Some r end.
(** lcs.scm:127-157  lcs-fold *)
Section F.
Context {S : Type}.
Variables a_only b_only both : A -> S -> S.
Definition fold (f : A -> S -> S) (s : S) (l : list A) : S := fold_left (fun s e => f e s) l s.
Fixpoint fold_common (common : list (A * Z * Z)) (seed : S) (a : list A) (a_pos : Z) (b : list A) (b_pos : Z) : option S :=
  match common with
  | [] => Some (fold b_only (fold a_only seed a) b)
  | (e, a_off, b_off) :: rest =>
      match split_at a (a_off - a_pos), split_at b (b_off - b_pos) with
      | Some (ah, at_), Some (bh, bt) =>
          match cdr at_, cdr bt with
          | Some a', Some b' => fold_common rest (both e (fold b_only (fold a_only seed ah) bh)) a' (a_off + 1) b' (b_off + 1)
          | _, _ => None
          end
      | _, _ => None
      end
  end.
Definition lcs_fold (seed : S) (a b : list A) : option S :=
  match lcs_with_positions a b with Some (_, common) => fold_common common seed a 0 b 0 | None => None end.
End F.
(** lcs.scm:163-183  lcs-edit-list: a-pos, b-pos and hunks are part of the seed here *)
Inductive edit := Rm (i : Z) (e : A) | Ad (i : Z) (e : A).
Record est := { apos : Z; bpos : Z; hunks : list (list edit); hunk : list edit }.
Definition e_a (e : A) (s : est) : est :=
  {| apos := apos s + 1; bpos := bpos s; hunks := hunks s; hunk := Rm (apos s + 1) e :: hunk s |}.
Definition e_b (e : A) (s : est) : est :=
  {| apos := apos s; bpos := bpos s + 1; hunks := hunks s; hunk := Ad (bpos s + 1) e :: hunk s |}.
Definition close (s : est) : list (list edit) := match hunk s with [] => hunks s | _ => rev (hunk s) :: hunks s end.
Definition e_c (e : A) (s : est) : est := {| apos := apos s + 1; bpos := bpos s + 1; hunks := close s; hunk := [] |}.
Definition lcs_edit_list (a b : list A) : option (list (list edit)) :=
  match lcs_fold e_a e_b e_c {| apos := -1; bpos := -1; hunks := []; hunk := [] |} a b with
  | Some s => Some (rev (close s))
  | None => None
  end.
End L.
Arguments ent : clear implicits.
Arguments edit : clear implicits.
Arguments est : clear implicits.
