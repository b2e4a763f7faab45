(** Exact rational numbers: src/number.c ratnums, on top of the integer objects of IntModel.
    Flonum and compnum operands are not modelled here. *)
From Coq Require Import List Bool ZArith.
From Verif Require Import Outcome BignumModel IntModel.
Import ListNotations.
Local Open Scope Z_scope.

(** an exact real: an integer, or a ratnum object with numerator and denominator *)
Inductive exact := EInt (n : num) | ERat (n d : num).
(** SCM_EXACT_ZERO_P, SCM_EXACT_ONE_P: identity with the fixnum *)
Definition zero_p (x : num) : bool := match x with Fix v => v =? 0 | Bn _ => false end.
Definition one_p (x : num) : bool := match x with Fix v => v =? 1 | Bn _ => false end.

(** number.c:724-767 Scm_ReduceRational of a ratnum object (numer, denom).  A zero denominator
    gives a flonum there; its only caller has excluded it, so it is UB here. *)
Definition reduce_rational (numer denom : num) : res exact :=
  let negated := num_sign denom <? 0 in
  let numer := if negated then num_negate numer else numer in
  let denom := if negated then num_negate denom else denom in
  if one_p denom then Ok (EInt numer)
  else if zero_p denom then UB
  else
    do common <- num_gcd numer denom;
    if one_p common then Ok (ERat numer denom)
    else
      do qn <- num_quotient numer common;
      do qd <- num_quotient denom common;
      if one_p (fst qd) then Ok (EInt (fst qn)) else Ok (ERat (fst qn) (fst qd)).
(** number.c:691-706 Scm_MakeRational *)
Definition make_rational (numer denom : num) : res exact :=
  if zero_p denom then Err
  else if one_p denom then Ok (EInt numer)
  else if zero_p numer then Ok (EInt (Fix 0))
  else reduce_rational numer denom.

Definition numer_of (x : exact) : num := match x with EInt n => n | ERat n _ => n end.
Definition denom_of (x : exact) : num := match x with EInt _ => Fix 1 | ERat _ d => d end.
(** Scm_NumEq of two exact integers (number.c:3056-3069) *)
Definition num_eq (x y : num) : res bool := do c <- num_cmp x y; Ok (c =? 0).
(** number.c:770-811 Scm_RatnumAddSub *)
Definition ratnum_addsub (x y : exact) (subtract : bool) : res exact :=
  let nx := numer_of x in let dx := denom_of x in let ny := numer_of y in let dy := denom_of y in
  let finish nx ny dr := do nr <- (if subtract then num_sub nx ny else num_add nx ny); make_rational nr dr in
  do same <- num_eq dx dy;
  if (same : bool) then finish nx ny dx
  else
    do gcd <- (if one_p dx || one_p dx then Ok (Fix 1) else num_gcd dx dy);
    do ex <- num_eq dx gcd;
    if (ex : bool) then do q <- num_quotient dy dx; do nx <- num_mul (fst q) nx; finish nx ny dy
    else
      do ey <- num_eq dy gcd;
      if (ey : bool) then do q <- num_quotient dx dy; do ny <- num_mul (fst q) ny; finish nx ny dx
      else
        do fx <- num_quotient dx gcd;
        do fy <- num_quotient dy gcd;
        do nx <- num_mul nx (fst fy);
        do ny <- num_mul ny (fst fx);
        do dr <- num_mul dx (fst fy);
        finish nx ny dr.
(** number.c:813-826 Scm_RatnumMulDiv *)
Definition ratnum_muldiv (x y : exact) (divide : bool) : res exact :=
  let nx := numer_of x in let dx := denom_of x in
  let ny := if divide then denom_of y else numer_of y in
  let dy := if divide then numer_of y else denom_of y in
  do n <- num_mul nx ny;
  do d <- num_mul dx dy;
  make_rational n d.

Definition is_fix_zero (x : exact) : bool := match x with EInt n => zero_p n | ERat _ _ => false end.
Definition is_fix_one (x : exact) : bool := match x with EInt n => one_p n | ERat _ _ => false end.
(** number.c:1896-2020 scm_add, exact operands *)
Definition rat_add (x y : exact) : res exact :=
  match x, y with
  | EInt a, EInt b => do r <- num_add a b; Ok (EInt r)
  | EInt _, ERat _ _ => if is_fix_zero x then Ok y else ratnum_addsub x y false
  | ERat _ _, EInt _ => if is_fix_zero y then Ok x else ratnum_addsub x y false
  | ERat _ _, ERat _ _ => ratnum_addsub x y false
  end.
(** number.c:2023-2140 scm_sub *)
Definition rat_sub (x y : exact) : res exact :=
  match x, y with
  | EInt a, EInt b => do r <- num_sub a b; Ok (EInt r)
  | EInt _, ERat _ _ => ratnum_addsub x y true
  | ERat _ _, EInt _ => if is_fix_zero y then Ok x else ratnum_addsub x y true
  | ERat _ _, ERat _ _ => ratnum_addsub x y true
  end.
(** number.c:2145-2300 scm_mul *)
Definition rat_mul (x y : exact) : res exact :=
  match x, y with
  | EInt a, EInt b => do r <- num_mul a b; Ok (EInt r)
  | EInt _, ERat _ _ => if is_fix_zero x then Ok x else if is_fix_one x then Ok y else ratnum_muldiv x y false
  | ERat _ _, EInt _ => if is_fix_zero y then Ok y else if is_fix_one y then Ok x else ratnum_muldiv x y false
  | ERat _ _, ERat _ _ => ratnum_muldiv x y false
  end.
(** number.c:2326-2500 scm_div, neither inexact nor compat *)
Definition rat_div (x y : exact) : res exact :=
  match x, y with
  | EInt a, EInt b =>
    match a, b with
    | Fix _, Fix _ => if zero_p b then Err else if zero_p a then Ok x else if one_p b then Ok x else make_rational a b
    | Fix _, Bn _ => if zero_p a then Ok x else make_rational a b
    | Bn _, Fix _ => if zero_p b then Err else if one_p b then Ok x else make_rational a b
    | Bn _, Bn _ => make_rational a b
    end
  | EInt a, ERat n d => do m <- num_mul a d; make_rational m n
  | ERat n d, EInt b =>
    match b with
    | Fix _ => if zero_p b then Err else if one_p b then Ok x else do m <- num_mul d b; make_rational n m
    | Bn _ => do m <- num_mul d b; make_rational n m
    end
  | ERat _ _, ERat _ _ => ratnum_muldiv x y true
  end.
(** number.c:1767-1789 negate *)
Definition rat_negate (x : exact) : res exact :=
  match x with EInt n => Ok (EInt (num_negate n)) | ERat n d => make_rational (num_negate n) d end.
(** number.c:1704-1737 scm_abs *)
Definition rat_abs (x : exact) : res exact :=
  match x with
  | EInt n => Ok (EInt (num_abs n))
  | ERat n d => if num_sign n <? 0 then make_rational (num_negate n) d else Ok x
  end.
(** number.c:1794-1804 reciprocal *)
Definition rat_reciprocal (x : exact) : res exact :=
  match x with EInt n => make_rational (Fix 1) n | ERat n d => make_rational d n end.
Definition rat_sign (x : exact) : Z := num_sign (numer_of x).

Inductive round_mode := Floor | Ceil | Trunc | Round.
(** number.c:3314-3365 scm_round of an exact number *)
Definition rat_round (x : exact) (mode : round_mode) : res num :=
  match x with
  | EInt n => Ok n
  | ERat n d =>
    do qr <- num_quotient n d;
    let quot := fst qr in let rem := snd qr in
    if zero_p rem then Ok quot
    else
      let neg := num_sign n <? 0 in
      do offset <-
        (match mode with
         | Floor => Ok (if neg then -1 else 0)
         | Ceil => Ok (if neg then 0 else 1)
         | Trunc => Ok 0
         | Round =>
           do rem2 <- num_mul (num_abs rem) (Fix 2);
           do cmp <- num_cmp d rem2;
           if 0 <? cmp then Ok 0
           else if cmp <? 0 then Ok (if neg then -1 else 1)
           else do o <- num_oddp quot; Ok (if (o : bool) then (if neg then -1 else 1) else 0)
         end);
      if offset =? 0 then Ok quot else num_add quot (Fix offset)
  end.
