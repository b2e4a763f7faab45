(** rationalize and real->rational: lib/gauche/numutil.scm:57-172, src/libnum.scm:446-453.
    Exact arithmetic on Q stands for the ratnum operations (RatModel); results are kept in
    lowest terms by [Qred]. *)
From Coq Require Import ZArith QArith List Bool.
From Verif Require Import Outcome FloModel.
Import ListNotations.
Local Open Scope Z_scope.

(** numutil.scm:59-66 continued-fraction: the lazy sequence is a list here.  [fuel] bounds
    the remainders that are produced. *)
Fixpoint cf_loop (fuel : nat) (a b : Z) : list Z :=
  match fuel with
  | O => []
  | S f => if b =? 0 then [] else Z.quot a b :: cf_loop f b (Z.rem a b)
  end.
Definition continued_fraction (q : Q) : list Z :=
  cf_loop (S (S (2 * Z.to_nat (Z.log2 (Z.pos (Qden (Qred q))))))) (Qnum (Qred q)) (Z.pos (Qden (Qred q))).

(** numutil.scm:80-89 refine/c.  [Err]: car or cdr of the empty list. *)
Fixpoint refine_c (xn yn an : list Z) : res (list Z) :=
  match xn, yn with
  | [], _ | _, [] => Err
  | [x], [y] => Ok (Z.min x y :: an)
  | [x], y :: _ => Ok (Z.min x (1 + y) :: an)
  | x :: _, [y] => Ok (Z.min y (x + 1) :: an)
  | x :: xt, y :: yt => if x =? y then refine_c xt yt (x :: an) else Ok (1 + Z.min x y :: an)
  end.
(** numutil.scm:91-119 refine/o; [refine_end] is its first clause, where the first list has
    one element left *)
Definition refine_end (x : Z) (yn an : list Z) : res (list Z) :=
  match yn with
  | [] => Err
  | [y] => if (x - y =? -1) || (x - y =? 1) then Ok (2 :: Z.min x y :: an) else Ok (1 + Z.min x y :: an)
  | y :: ym :: _ =>
      if x + 1 <? y then Ok (x + 1 :: an)
      else if y =? x + 1 then Ok (2 :: x :: an)
      else if y =? x then Ok (2 :: x - 1 :: an)
      else if y =? x - 1 then Ok (ym + 1 :: y :: an)
      else Ok (y + 1 :: an)
  end.
Fixpoint refine_o (xn yn an : list Z) : res (list Z) :=
  match xn, yn with
  | [], _ | _, [] => Err
  | [x], _ => refine_end x yn an
  | _, [y] => refine_end y xn an
  | x :: xt, y :: yt => if x =? y then refine_o xt yt (x :: an) else Ok (1 + Z.min x y :: an)
  end.
(** numutil.scm:121-122 realize; [Err]: division by zero *)
Definition realize_step (r : res Q) (a : Z) : res Q :=
  do q <- r; if Qeq_bool q 0 then Err else Ok (Qred (inject_Z a + / q)).
Definition realize (rcf : list Z) : res Q :=
  match rcf with [] => Err | a :: t => fold_left realize_step t (Ok (inject_Z a)) end.

Definition Qlt_bool (p q : Q) : bool := negb (Qle_bool q p).
(** numutil.scm:151-162 find-rational-1, x exact *)
Definition find_rational_1 (x dxp dxm : Q) (open : bool) : res Q :=
  let ub := Qred (x + dxp) in
  let lb := Qred (x - dxm) in
  if Qlt_bool lb 0 then Ok 0%Q
  else if Qeq_bool ub lb then (if open then Err else Ok ub)
  else
    do l <- (if open then refine_o (continued_fraction ub) (continued_fraction lb) []
             else refine_c (continued_fraction ub) (continued_fraction lb) []);
    realize l.
(** numutil.scm:164-172 real->rational of an exact x and exact error bounds *)
Definition real_to_rational (x dxp dxm : Q) (open : bool) : res Q :=
  if Qlt_bool x 0 then do r <- find_rational_1 (- x) dxm dxp open; Ok (Qred (- r))
  else find_rational_1 x dxp dxm open.
(** libnum.scm:446-453 rationalize of exact arguments *)
Definition rationalize (x e : Q) : res Q := if Qlt_bool e 0 then Err else real_to_rational x e e false.

(** 2^k *)
Definition pow2 (k : Z) : Q := if 0 <=? k then inject_Z (2 ^ k) else 1 # Z.to_pos (2 ^ (- k)).
(** numutil.scm:124-130 ensure-exact of the double m * 2^k *)
Definition ensure_exact (m k : Z) : Q := Qred (inject_Z m * pow2 k).
(** numutil.scm:141-172: real->rational of a flonum without error bounds, from
    float-error-bounds; (- x) of a negative flonum has the same mantissa *)
Definition flonum_to_rational (neg : bool) (m k : Z) : res Q :=
  let open := Z.odd m in
  let dxp := pow2 (k - 1) in
  let dxm := if m =? 2 ^ 52 then pow2 (k - 2) else pow2 (k - 1) in
  do r <- find_rational_1 (ensure_exact m k) dxp dxm open;
  Ok (if neg then Qred (- r) else r).
