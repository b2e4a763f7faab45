(** Percent-encoding, RFC 3986 section 2.1. *)
From Coq Require Import List Bool ZArith String Ascii.
Import ListNotations.
Local Open Scope Z_scope.
Definition is_byte (b : Z) : Prop := 0 <= b < 256.
Definition codes (s : string) : list Z := map (fun c => Z.of_nat (nat_of_ascii c)) (list_ascii_of_string s).
Definition upper_digits : list Z := codes "0123456789ABCDEF".
Definition lower_digits : list Z := codes "0123456789abcdef".
(** c is a hexadecimal digit of value v, in either case *)
Definition hex_value (c v : Z) : Prop :=
  exists n, (n < 16)%nat /\ v = Z.of_nat n /\ (c = nth n upper_digits 0 \/ c = nth n lower_digits 0).
(** %HH *)
Inductive triplet : list Z -> Z -> Prop :=
| Triplet a b x y : hex_value a x -> hex_value b y -> triplet [37; a; b] (16 * x + y).
(** What a text stands for: triplets are octets; everything else, including a % that starts no
    triplet, stands for itself; + is a space in forms. *)
Inductive percent_means (form : bool) : list Z -> list Z -> Prop :=
| pm_nil : percent_means form [] []
| pm_octet t v s bs : triplet t v -> percent_means form s bs -> percent_means form (t ++ s) (v :: bs)
| pm_char c s bs : (forall a b s', c = 37 -> s = a :: b :: s' -> ~ exists v, triplet [c; a; b] v) -> (form = true -> c <> 43) ->
    percent_means form s bs -> percent_means form (c :: s) (c :: bs)
| pm_plus s bs : form = true -> percent_means form s bs -> percent_means form (43 :: s) (32 :: bs).
(** Text of the form (unescaped character | %HH with capital digits)* *)
Inductive encoded_text (ok : Z -> Prop) : list Z -> Prop :=
| et_nil : encoded_text ok []
| et_char c s : ok c -> encoded_text ok s -> encoded_text ok (c :: s)
| et_octet a b s : In a upper_digits -> In b upper_digits -> encoded_text ok s -> encoded_text ok (37 :: a :: b :: s).
(** RFC 3986 section 2.3 *)
Definition unreserved : list Z := codes "ABCDEFGHIJKLMNOPQRSTUVWXYZabcdefghijklmnopqrstuvwxyz0123456789-._~".
