(** What equal? should mean. *)
From Coq Require Import List ZArith QArith SpecFloat.
From Verif Require Import EqualModel.
Import ListNotations.
(** Numbers: exact ones of the same value; flonums that are the same datum (not NaN; zeros of the same sign);
    complex ones with numerically equal parts. *)
Inductive same_number : number -> number -> Prop :=
| sn_exact a b p q : exact_val a = Some p -> exact_val b = Some q -> (p == q)%Q -> same_number a b
| sn_flo f : f <> S754_nan -> same_number (NFlo f) (NFlo f)
| sn_comp r i r' i' : SFeqb r r' = true -> SFeqb i i' = true -> same_number (NComp r i) (NComp r' i').
Definition symbol_of (h : heap) (x : obj) : obj := match x with ORef a => match h a with NIdent s => ORef s | _ => x end | _ => x end.
(** Things compared without looking inside *)
Inductive same_atom (h : heap) : obj -> obj -> Prop :=
| sa_eq x : same_atom h x x
| sa_num x y a b : num_of h x = Some a -> num_of h y = Some b -> same_number a b -> same_atom h x y
| sa_str a b s i : h a = NStr s i -> h b = NStr s i -> same_atom h (ORef a) (ORef b)
| sa_ident a b s : h a = NIdent s -> h b = NIdent s -> same_atom h (ORef a) (ORef b)   (* two wrappings of one symbol *)
| sa_ident_l a s : h a = NIdent s -> same_atom h (ORef a) (ORef s)
| sa_ident_r b s : h b = NIdent s -> same_atom h (ORef s) (ORef b)
| sa_uint a b t l : h a = NUInt t l -> h b = NUInt t l -> same_atom h (ORef a) (ORef b)
| sa_uflo a b t l l' : h a = NUFlo t l -> h b = NUFlo t l' -> Forall2 (fun f g => SFeqb f g = true) l l' -> same_atom h (ORef a) (ORef b).
(** Two data may differ in sharing only: some relation between them respects pairs, vectors and atoms. *)
Inductive step_rel (h : heap) (P : obj -> obj -> Prop) : obj -> obj -> Prop :=
| sr_atom x y : same_atom h x y -> step_rel h P x y
| sr_pair a b p q p' q' : h a = NPair p q -> h b = NPair p' q' -> P p p' -> P q q' -> step_rel h P (ORef a) (ORef b)
| sr_vec a b l l' : h a = NVec l -> h b = NVec l' -> Forall2 P l l' -> step_rel h P (ORef a) (ORef b).
Definition same_datum (h : heap) (x y : obj) : Prop :=
  exists P : obj -> obj -> Prop, (forall a b, P a b -> step_rel h P a b) /\ P x y.
(** An identifier stands for a symbol. *)
Definition idents_ok (h : heap) : Prop := forall a s, h a = NIdent s -> exists n, h s = NSym n.
(** No datum contains itself. *)
Inductive child (h : heap) : nat -> nat -> Prop :=
| ch_car a b q : h a = NPair (ORef b) q -> child h a b
| ch_cdr a b p : h a = NPair p (ORef b) -> child h a b
| ch_vec a b l : h a = NVec l -> In (ORef b) l -> child h a b.
Definition acyclic (h : heap) : Prop := exists rank : nat -> nat, forall a b, child h a b -> (rank b < rank a)%nat.
(** Data for which equal? and the hashes agree: ratnums are normalised (as all ratnums are), and there is no float
    uvector, no identifier and no complex number with a zero part. *)
Definition hash_ok (h : heap) : Prop := forall a,
  match h a with
  | NNum (NRat n d) => Z.gcd n (Zpos d) = 1%Z /\ d <> 1%positive
  | NNum (NComp r i) => (forall s, r <> S754_zero s) /\ (forall s, i <> S754_zero s)
  | NNum _ => True
  | NUFlo _ _ | NIdent _ => False
  | _ => True
  end.
