(** What it means to be the double nearest to a number, and to be its shortest decimal.

    A double is m * 2^k with 0 <= m < 2^53 and k >= -1074, m >= 2^52 unless k = -1074;
    it is finite if also k <= 971.  Values are compared in units of 2^-1074, where a double
    is the integer m * 2^(k+1074); a decimal f * 10^e is a fraction. *)
From Coq Require Import ZArith List Bool.
Import ListNotations.
Local Open Scope Z_scope.

Definition is_double (m k : Z) : Prop := -1074 <= k /\ 0 <= m < 2 ^ 53 /\ (k = -1074 \/ 2 ^ 52 <= m).
Definition finite_double (m k : Z) : Prop := is_double m k /\ k <= 971.
Definition units (m k : Z) : Z := m * 2 ^ (k + 1074).
(** f * 10^e in those units, numerator and denominator *)
Definition dec_num (f e : Z) : Z := f * 10 ^ (Z.max e 0) * 2 ^ 1074.
Definition dec_den (e : Z) : Z := 10 ^ (Z.max (- e) 0).

(** m * 2^k is the double nearest to N/D (> 0), ties to even, the exponent unbounded above *)
Definition nearest (N D m k : Z) : Prop :=
  is_double m k /\
  forall m' k', is_double m' k' -> units m' k' <> units m k ->
    Z.abs (units m k * D - N) <= Z.abs (units m' k' * D - N) /\
    (Z.abs (units m k * D - N) = Z.abs (units m' k' * D - N) -> Z.even m = true).
(** reading f * 10^e as m * 2^k is right *)
Definition reads_as (f e m k : Z) : Prop := nearest (dec_num f e) (dec_den e) m k.
(** f * 10^e <= f' * 10^e' *)
Definition dec_le (f e f' e' : Z) : Prop := dec_num f e * dec_den e' <= dec_num f' e' * dec_den e.
(** distance of f * 10^e from m * 2^k, times [dec_den e] *)
Definition dec_dist (f e m k : Z) : Z := Z.abs (dec_num f e - units m k * dec_den e).

(** The estimate: 10^(est-1) <= m * 2^k < 2 * 10^est, implied by log10 being computed with
    an error below 1/10 *)
Definition estimate_ok (m k est : Z) : Prop :=
  dec_num 1 (est - 1) <= units m k * dec_den (est - 1) /\ units m k * dec_den est < dec_num 2 est.

(** ** Decimal texts *)
Definition digits (ds : list Z) : Prop := Forall (fun d => 0 <= d <= 9) ds.
Definition chars (ds : list Z) : list Z := map (fun d => d + 48) ds.
Definition number (ds : list Z) : Z := fold_left (fun a d => a * 10 + d) ds 0.
(** a sign, or nothing *)
Inductive sign_text : bool -> list Z -> Prop :=
| sign_none : sign_text false [] | sign_plus : sign_text false [43] | sign_minus : sign_text true [45].
(** an exponent part, or nothing *)
Inductive exp_text : Z -> list Z -> Prop :=
| exp_none : exp_text 0 []
| exp_some neg sg xs : sign_text neg sg -> digits xs -> xs <> [] -> exp_text (if neg then - number xs else number xs) (101 :: sg ++ chars xs).
(** [s] writes f * 10^e, negated if [neg], with a point or an exponent; [x] is the written
    exponent *)
Inductive literal : list Z -> bool -> Z -> Z -> Z -> Prop :=
| lit_point neg sg di df x ex : sign_text neg sg -> digits di -> digits df -> di <> [] \/ df <> [] -> exp_text x ex ->
    literal (sg ++ chars di ++ 46 :: chars df ++ ex) neg (number (di ++ df)) (x - Z.of_nat (length df)) x
| lit_exp neg sg di x ex : sign_text neg sg -> digits di -> di <> [] -> exp_text x ex -> ex <> [] ->
    literal (sg ++ chars di ++ ex) neg (number di) x x.
(** f * 10^e is half-way between the greatest subnormal and the least normal double *)
Definition least_normal_tie (f e : Z) : Prop := 2 * dec_num f e = (2 ^ 53 - 1) * dec_den e.
