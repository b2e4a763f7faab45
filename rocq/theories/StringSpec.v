(** Strings as sequences of characters: the specification. *)
From Coq Require Import ZArith List.
From Verif Require Import Outcome Utf8Model Utf8Spec StringModel.
Import ListNotations.

(** The bytes of a character sequence: the concatenation of the UTF-8 encodings. *)
Inductive encodes_all : list Z -> list Z -> Prop :=
| enc_nil : encodes_all [] []
| enc_cons c cs bs bss :
    valid_char c -> utf8_encodes c bs -> encodes_all cs bss -> encodes_all (c :: cs) (bs ++ bss).

(** A (complete) string body holds the character sequence [cs]: its buffer
    starts with their encodings (anything may follow), and the sizes agree.  The
    index, if any, is one built by string-build-index! for these very bytes. *)
Definition holds (b : body) (cs : list Z) : Prop :=
  exists bs extra,
    encodes_all cs bs /\ b_buf b = bs ++ extra /\ b_size b = length bs
    /\ b_len b = length cs /\ b_incomplete b = false
    /\ Forall is_byte extra
    /\ (b_index b = None \/
        exists v, b_index b = Some v
          /\ index_needed b = true
          /\ build_index_array (mkbody (b_len b) (b_size b) (b_buf b) false None) = Ok v)
    /\ (Z.of_nat (b_size b) < 2 ^ 61)%Z.
