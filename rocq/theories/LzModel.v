(** src/lazy.c: lazy pairs as a transition system: the pairs of one lazy sequence, made from a first item
    and a generator.  One step is one access of a thread to a word of a pair; the schedule is
    arbitrary.  A thread outside SCM_PAIRP/Scm_ForceLazyPair runs user code (Idle), in which it may look
    at any pair and in which the generator runs it has started end, with any value, EOF or an error (or a
    non-local exit, which SCM_UNWIND_PROTECT handles alike).
    Pair i is the i-th one made; pairs are not changed by set-car! or set-cdr!.
    Memory is sequentially consistent.  Simplified: the generator slot (read and cleared by the owner
    only), attributes, lcons (the generator returns the next pair). *)
From Coq Require Import List Bool Arith.
Import ListNotations.

Definition tid := nat.
(** the hidden word: 0, the owner's VM, the extended pair descriptor *)
Inductive owner := Free | Own (t : tid) | Desc.
(** what the item/cdr word holds: the item, or the next pair or () *)
Inductive word := WItem (v : nat) | WNext (nx : option nat).
(** what a generator run ends with *)
Inductive gres := Val (v : nat) | Eof | Err.
Inductive ev :=
| EStart (t : tid) (i : nat)              (* the generator is called to force pair i *)
| EGen (t : tid) (i : nat) (r : gres)     (* that call ends *)
| ERaise (t : tid) (i : nat)              (* 'Attempt to recursively force a lazy pair' *)
| ECar (t : tid) (i : nat) (w : option word)  (* t, told that i is a pair, reads its car: None is the lazy pair tag *)
| ECdr (t : tid) (i : nat) (w : word).    (* and its cdr *)

Inductive pc :=
| Idle
| S0 (i : nat)                            (* SCM_PAIRP: about to look at the first word *)
| A0 (i : nat)                            (* 638  about to compare-and-swap owner *)
| A1 (i : nat)                            (* 640  about to read item *)
| A2 (i : nat) (v : word)                 (* 648  about to call the generator *)
| A3 (i : nat) (v : word) (nx : option nat)   (* 648  about to set item to the next pair *)
| A4 (i : nat) (v : word) (nx : option nat)   (* 650  about to set owner to the descriptor *)
| A6 (i : nat) (v : word)                 (* 652  about to set the car *)
| AE (i : nat)                            (* 654  about to set owner to 0 *)
| B1 (i : nat)                            (* 664  about to read owner *)
| B2 (i : nat)                            (* 671  about to look at the first word *)
| B3 (i : nat)                            (* 671  about to read owner *)
| B4 (i : nat)                            (* 674  about to read owner *)
| R (i : nat).                            (* told that i is a pair *)
Record st := {
  n : nat;                                (* pairs 0 .. n-1 have been made *)
  own : nat -> owner;
  tag : nat -> option word;               (* the first word: None is the LazyPair tag, else the car *)
  w2 : nat -> word;                       (* the second word: item, later cdr *)
  th : tid -> pc;
  stk : tid -> list (nat * word)          (* generator calls running in t: pair and its item *)
}.
Definition upd {A} (f : nat -> A) (i : nat) (v : A) : nat -> A := fun j => if Nat.eqb j i then v else f j.
Definition set_th t x s := {| n := n s; own := own s; tag := tag s; w2 := w2 s; th := upd (th s) t x; stk := stk s |}.
Definition set_own i o s := {| n := n s; own := upd (own s) i o; tag := tag s; w2 := w2 s; th := th s; stk := stk s |}.
Definition set_tag i v s := {| n := n s; own := own s; tag := upd (tag s) i v; w2 := w2 s; th := th s; stk := stk s |}.
Definition set_w2 i w s := {| n := n s; own := own s; tag := tag s; w2 := upd (w2 s) i w; th := th s; stk := stk s |}.
Definition set_stk t l s := {| n := n s; own := own s; tag := tag s; w2 := w2 s; th := th s; stk := upd (stk s) t l |}.
(** src/lazy.c:524-540  make_lazy_pair *)
Definition new_pair v s :=
  {| n := S (n s); own := upd (own s) (n s) Free; tag := upd (tag s) (n s) None; w2 := upd (w2 s) (n s) (WItem v);
     th := th s; stk := stk s |}.
Definition init (v0 : nat) : st :=
  {| n := 1; own := fun _ => Free; tag := fun _ => None; w2 := fun _ => WItem v0; th := fun _ => Idle; stk := fun _ => [] |}.

Inductive step : st -> tid -> list ev -> st -> Prop :=
(** src/gauche.h:757-758  SCM_PAIRP, src/lazy.c:678-686  Scm_PairP *)
| S_look s t i : th s t = Idle -> i < n s -> step s t [] (set_th t (S0 i) s)
| S_S0_lazy s t i : th s t = S0 i -> tag s i = None -> step s t [] (set_th t (A0 i) s)
| S_S0_pair s t i : th s t = S0 i -> tag s i <> None -> step s t [] (set_th t (R i) s)
(** src/lazy.c:629-676  Scm_ForceLazyPair *)
| S_A0 s t i : th s t = A0 i -> own s i = Free -> step s t [] (set_own i (Own t) (set_th t (A1 i) s))
| S_A0_no s t i : th s t = A0 i -> own s i <> Free -> step s t [] (set_th t (B1 i) s)
| S_A1 s t i : th s t = A1 i -> step s t [] (set_th t (A2 i (w2 s i)) s)
| S_A2 s t i v : th s t = A2 i v -> step s t [EStart t i] (set_stk t ((i, v) :: stk s t) (set_th t Idle s))
| S_val s t i v l x : th s t = Idle -> stk s t = (i, v) :: l ->
    step s t [EGen t i (Val x)] (set_stk t l (set_th t (A3 i v (Some (n s))) (new_pair x s)))
| S_eof s t i v l : th s t = Idle -> stk s t = (i, v) :: l ->
    step s t [EGen t i Eof] (set_stk t l (set_th t (A3 i v None) s))
| S_err s t i v l : th s t = Idle -> stk s t = (i, v) :: l ->
    step s t [EGen t i Err] (set_stk t l (set_th t (AE i) s))
| S_A3 s t i v nx : th s t = A3 i v nx -> step s t [] (set_w2 i (WNext nx) (set_th t (A4 i v nx) s))
| S_A4 s t i v nx : th s t = A4 i v nx -> step s t [] (set_own i Desc (set_th t (A6 i v) s))
| S_A6 s t i v : th s t = A6 i v -> step s t [] (set_tag i (Some v) (set_th t (R i) s))
| S_AE s t i : th s t = AE i -> step s t [] (set_own i Free (set_th t Idle s))
| S_B1_self s t i : th s t = B1 i -> own s i = Own t -> step s t [ERaise t i] (set_th t Idle s)
| S_B1 s t i : th s t = B1 i -> own s i <> Own t -> step s t [] (set_th t (B2 i) s)
| S_B2_lazy s t i : th s t = B2 i -> tag s i = None -> step s t [] (set_th t (B3 i) s)
| S_B2 s t i : th s t = B2 i -> tag s i <> None -> step s t [] (set_th t (B4 i) s)
| S_B3_wait s t i : th s t = B3 i -> own s i <> Free -> step s t [] (set_th t (B2 i) s)
| S_B3 s t i : th s t = B3 i -> own s i = Free -> step s t [] (set_th t (B4 i) s)
| S_B4_retry s t i : th s t = B4 i -> own s i = Free -> step s t [] (set_th t (A0 i) s)
| S_B4 s t i : th s t = B4 i -> own s i <> Free -> step s t [] (set_th t (R i) s)
| S_car s t i : th s t = R i -> step s t [ECar t i (tag s i)] s
| S_cdr s t i : th s t = R i -> step s t [ECdr t i (w2 s i)] s
| S_leave s t i : th s t = R i -> step s t [] (set_th t Idle s).

Inductive exec (v0 : nat) : st -> list ev -> Prop :=
| E_init : exec v0 (init v0) []
| E_step s h t e s' : exec v0 s h -> step s t e s' -> exec v0 s' (h ++ e).
