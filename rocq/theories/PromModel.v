(** src/lazy.c: promises as a transition system.  One step is one access of a thread to a promise or a
    promise content (or an access under the content's mutex when it is the only one); the schedule is
    arbitrary.  A thread that is not inside force, force_cc or force_exc_handler is idle: it runs user
    code, which may make and force promises, and in which the runs of thunks end.  Any run that was
    started may end at any idle thread, any number of times, with any result: this covers nested forces,
    continuations and all thunks.
    Memory is sequentially consistent.  Simplified: kind, printing, the dynamic handlers; a result of a
    thunk is a list of values or a promise (anything else fails SCM_ASSERT, 200). *)
From Coq Require Import List Bool Arith.
Import ListNotations.

Definition tid := nat.
(** src/gauche/priv/promiseP.h:40-44 *)
Inductive pstate := Unforced | Forced | Exception.
(** ScmPromiseContent.code: a thunk, a list of values, a condition *)
Inductive pcode := CThunk (th : nat) | CVals (vs : nat) | CExc (e : nat).
(** src/lazy.c:79-84 *)
Record content := { sta : pstate; code : pcode; par : nat }.
(** how a run of a thunk ends: values, a promise, an exception *)
Inductive result := RVals (vs : nat) | RProm (r : nat) | RExc (e : nat).
(** how a force ends *)
Inductive kind := Return | Raise.

Inductive ev :=
| ENew (p th pr : nat)                       (* delay, lazy, delay-force: with the current parameterization *)
| EEager (p vs : nat)                        (* eager, make-promise *)
| ERun (t : tid) (p : nat) (k : pcode) (pr : nat)  (* force of p applies k in the parameterization pr *)
| EResult (t : tid) (p : nat) (k : pcode) (r : result)  (* a run of k that a force of p has started ends *)
| EDone (t : tid) (p : nat) (k : kind) (x : pcode).  (* a force of p returns the values x, or raises x *)

(** what a thread that has stored a state does next: force again, redirect r first, raise *)
Inductive after := AForce | AMove (r : nat) | ARaise.
Inductive pc :=
| Idle
| F0 (p : nat)                        (* 216  about to read p->content *)
| F1 (p c : nat)                      (* 220  about to read c->state *)
| F2 (p c : nat) (s : pstate)         (* 223, 226  state s read; about to read c->code *)
| F3 (p c : nat)                      (* 233  about to lock c *)
| C0 (p : nat) (r : result)           (* 162, 179  about to read p->content *)
| C1 (p c : nat) (r : result)         (* 164, 182  about to lock c *)
| C2 (p c r : nat)                    (* 191  c locked; about to read r->content *)
| C3 (p c r cc : nat)                 (* 192  about to read cc->code *)
| C4 (p c r cc : nat) (k : pcode)     (* 192  about to write c->code *)
| C5 (p c r cc : nat)                 (* 194  about to read cc->state *)
| CW (p c : nat) (k : pcode) (s : pstate) (a : after)  (* 167, 201  about to write c->code *)
| C6 (p c : nat) (s : pstate) (a : after)  (* 168, 194, 203  about to write c->state *)
| C7 (p c r : nat)                    (* 195  about to write r->content *)
| C8 (p c : nat) (a : after)          (* 170, 206  about to unlock c *)
| H4 (p c : nat).                     (* 173  about to read c->code and raise it *)

Record st := {
  np : nat;                          (* promises 0 .. np - 1 exist; content p was made for promise p *)
  cont : nat -> content;
  ptr : nat -> nat;                  (* promise -> content *)
  lock : nat -> option tid;          (* ScmPromiseContent.mutex *)
  th : tid -> pc;
  runs : list (nat * pcode)          (* the runs started: promise and thunk *)
}.
Definition upd {A} (f : nat -> A) (i : nat) (v : A) : nat -> A := fun j => if Nat.eqb j i then v else f j.
Definition set_th t x s := {| np := np s; cont := cont s; ptr := ptr s; lock := lock s; th := upd (th s) t x; runs := runs s |}.
Definition set_lock c o s := {| np := np s; cont := cont s; ptr := ptr s; lock := upd (lock s) c o; th := th s; runs := runs s |}.
Definition set_ptr r c s := {| np := np s; cont := cont s; ptr := upd (ptr s) r c; lock := lock s; th := th s; runs := runs s |}.
Definition set_cont c x s := {| np := np s; cont := upd (cont s) c x; ptr := ptr s; lock := lock s; th := th s; runs := runs s |}.
Definition add_run p k s := {| np := np s; cont := cont s; ptr := ptr s; lock := lock s; th := th s; runs := (p, k) :: runs s |}.
(** src/lazy.c:124-149  Scm_MakePromise *)
Definition new_promise x s :=
  {| np := S (np s); cont := upd (cont s) (np s) x; ptr := upd (ptr s) (np s) (np s); lock := upd (lock s) (np s) None;
     th := th s; runs := runs s |}.
Definition init : st :=
  {| np := 0; cont := fun _ => {| sta := Unforced; code := CVals 0; par := 0 |}; ptr := fun p => p; lock := fun _ => None;
     th := fun _ => Idle; runs := [] |}.
Definition set_code k x := {| sta := sta x; code := k; par := par x |}.
Definition set_state v x := {| sta := v; code := code x; par := par x |}.
Definition kind_of s := match s with Exception => Raise | _ => Return end.
(** where a thread goes that has found the promise settled, or settled it *)
Definition goon p c a := match a with ARaise => H4 p c | _ => F0 p end.
Definition after_of r := match r with RExc _ => ARaise | RProm r => AMove r | RVals _ => AForce end.

Inductive step : st -> tid -> list ev -> st -> Prop :=
(** src/vminsn.scm:932-933 *)
| S_new s t h pr : th s t = Idle ->
    step s t [ENew (np s) h pr] (new_promise {| sta := Unforced; code := CThunk h; par := pr |} s)
(** src/liblazy.scm:55-56 *)
| S_eager s t vs : th s t = Idle ->
    step s t [EEager (np s) vs] (new_promise {| sta := Forced; code := CVals vs; par := 0 |} s)
(** src/lazy.c:212-263  Scm_VMForce *)
| S_force s t p : th s t = Idle -> p < np s -> step s t [] (set_th t (F0 p) s)
| S_F0 s t p : th s t = F0 p -> step s t [] (set_th t (F1 p (ptr s p)) s)
| S_F1_settled s t p c : th s t = F1 p c -> sta (cont s c) <> Unforced ->
    step s t [] (set_th t (F2 p c (sta (cont s c))) s)
| S_F1_unforced s t p c : th s t = F1 p c -> sta (cont s c) = Unforced -> step s t [] (set_th t (F3 p c) s)
| S_F2 s t p c v : th s t = F2 p c v -> step s t [EDone t p (kind_of v) (code (cont s c))] (set_th t Idle s)
| S_F3_settled s t p c : th s t = F3 p c -> lock s c = None -> sta (cont s c) <> Unforced ->
    step s t [] (set_th t (F1 p c) s)
| S_F3 s t p c : th s t = F3 p c -> lock s c = None -> sta (cont s c) = Unforced ->
    step s t [ERun t p (code (cont s c)) (par (cont s c))] (add_run p (code (cont s c)) (set_th t Idle s))
(** src/lazy.c:176-210  force_cc;  155-174  force_exc_handler *)
| S_result s t p k r : th s t = Idle -> In (p, k) (runs s) -> match r with RProm q => q < np s | _ => True end ->
    step s t [EResult t p k r] (set_th t (C0 p r) s)
| S_C0 s t p r : th s t = C0 p r -> step s t [] (set_th t (C1 p (ptr s p) r) s)
| S_C1_settled s t p c r : th s t = C1 p c r -> lock s c = None -> sta (cont s c) <> Unforced ->
    step s t [] (set_th t (goon p c (after_of r)) s)
| S_C1_vals s t p c vs : th s t = C1 p c (RVals vs) -> lock s c = None -> sta (cont s c) = Unforced ->
    step s t [] (set_lock c (Some t) (set_th t (CW p c (CVals vs) Forced AForce) s))
| S_C1_exc s t p c e : th s t = C1 p c (RExc e) -> lock s c = None -> sta (cont s c) = Unforced ->
    step s t [] (set_lock c (Some t) (set_th t (CW p c (CExc e) Exception ARaise) s))
| S_C1_prom s t p c r : th s t = C1 p c (RProm r) -> lock s c = None -> sta (cont s c) = Unforced ->
    step s t [] (set_lock c (Some t) (set_th t (C2 p c r) s))
| S_C2 s t p c r : th s t = C2 p c r -> step s t [] (set_th t (C3 p c r (ptr s r)) s)
| S_C3 s t p c r cc : th s t = C3 p c r cc -> step s t [] (set_th t (C4 p c r cc (code (cont s cc))) s)
| S_C4 s t p c r cc k : th s t = C4 p c r cc k ->
    step s t [] (set_cont c (set_code k (cont s c)) (set_th t (C5 p c r cc) s))
| S_C5 s t p c r cc : th s t = C5 p c r cc -> step s t [] (set_th t (C6 p c (sta (cont s cc)) (AMove r)) s)
| S_CW s t p c k v a : th s t = CW p c k v a ->
    step s t [] (set_cont c (set_code k (cont s c)) (set_th t (C6 p c v a) s))
| S_C6 s t p c v a : th s t = C6 p c v a ->
    step s t [] (set_cont c (set_state v (cont s c)) (set_th t (match a with AMove r => C7 p c r | _ => C8 p c a end) s))
| S_C7 s t p c r : th s t = C7 p c r -> step s t [] (set_ptr r c (set_th t (C8 p c (AMove r)) s))
| S_C8 s t p c a : th s t = C8 p c a -> step s t [] (set_lock c None (set_th t (goon p c a) s))
| S_H4 s t p c : th s t = H4 p c -> step s t [EDone t p Raise (code (cont s c))] (set_th t Idle s).

(** ok s t: the scheduler may let t go on in s *)
Inductive exec (ok : st -> tid -> Prop) : st -> list ev -> Prop :=
| E_init : exec ok init []
| E_step s h t e s' : exec ok s h -> ok s t -> step s t e s' -> exec ok s' (h ++ e).
