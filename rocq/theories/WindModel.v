(** src/vm.c: dynamic-wind, full continuations and prompts, with the chain of dynamic handlers.
    A state is a control point of user code: a continuation (a stack of frames), the handler chain,
    and the continuations captured so far.  What user code does between two control operations is
    left open.  An entry of the chain is known by a number given when it is made
    (make_dynamic_handler); two chains are the same object iff they are the same list of entries
    (WindProofs.okc).  Not modelled: partial continuations (call/pc, shift/reset), the C stack
    (a continuation captured under a finished C call), errors raised by a thunk. *)
From Coq Require Import List Bool PeanoNat.
From Verif Require Import Outcome.
Import ListNotations.

Definition chain := list nat.
(** ((flag . <handler-chain>) ...): false calls the after thunk, true the before thunk *)
Definition hdlist := list (bool * chain).
Inductive frame :=
| FUser                                        (* any frame of user code *)
| FBefore                                      (* dynwind_before_cc: the before thunk is running *)
| FBody (e : nat)                              (* dynwind_body_cc: the body is running *)
| FAfter                                       (* dynwind_after_cc: the after thunk is running *)
| FThrow (rest : hdlist) (k : list frame) (c : chain) (restore : option chain) (* throw_cont_cc *)
| FPrompt (tag : nat) (c : chain)              (* push_prompt_cont *)
| FAbort (k : list frame) (target : chain).    (* vm_abort_cc *)
(** what is observed: a before thunk is called to re-enter e, extent e is entered (its before thunk
    has returned), extent e is left (its after thunk is called) *)
Inductive ev := RunBefore (e : nat) | Entered (e : nat) | Left (e : nat).
Record st := { cont : list frame; handlers : chain; caps : list (list frame * chain); fresh : nat; trace : list ev }.
Definition init : st := {| cont := []; handlers := []; caps := []; fresh := 0; trace := [] |}.
Definition set_cont (k : list frame) (s : st) : st :=
  {| cont := k; handlers := handlers s; caps := caps s; fresh := fresh s; trace := trace s |}.
Definition set_handlers (c : chain) (s : st) : st :=
  {| cont := cont s; handlers := c; caps := caps s; fresh := fresh s; trace := trace s |}.
Definition emit (es : list ev) (s : st) : st :=
  {| cont := cont s; handlers := handlers s; caps := caps s; fresh := fresh s; trace := trace s ++ es |}.

(** Scm_Memq *)
Definition memq (e : nat) (c : chain) : bool := existsb (Nat.eqb e) c.
(** src/vm.c:3420-3424: after handlers of the current chain *)
Fixpoint calc_out (target p : chain) : hdlist :=
  match p with
  | [] => []
  | e :: r => if memq e target then [] else (false, p) :: calc_out target r
  end.
(** src/vm.c:3425-3430: before handlers of the target chain, consed up in reverse *)
Fixpoint calc_in (current p : chain) (h2 : hdlist) : hdlist :=
  match p with
  | [] => h2
  | e :: r => if memq e current then h2 else calc_in current r ((true, p) :: h2)
  end.
Definition chain_eq (a b : chain) : bool := if list_eq_dec Nat.eq_dec a b then true else false.
(** src/vm.c:3411-3433  throw_cont_calculate_handlers *)
Definition calculate_handlers (target current : chain) : hdlist :=
  if chain_eq target current then [] else calc_out target current ++ calc_in current target [].
(** src/vm.c:3475-3545  throw_cont_body.  k is the continuation of ep; ep's own chain c is not
    installed, the handler list leads to it. *)
Definition throw_cont_body (hd : hdlist) (k : list frame) (c : chain) (s : st) : res st :=
  match hd with
  | [] => Ok (set_cont k s)
  | (_, []) :: _ => Panic                                     (* SCM_CAR(chain), never happens *)
  | (false, e :: r) :: hd' =>
    Ok (emit [Left e] (set_handlers r (set_cont (FThrow hd' k c None :: cont s) s)))
  | (true, e :: r) :: hd' =>
    Ok (emit [RunBefore e] (set_cont (FThrow hd' k c (Some (e :: r)) :: cont s) s))
  end.
(** src/vm.c:3224-3237  vm_abort_cc, and the end of Scm_VMAbortCurrentContinuation (3266-3278) *)
Definition abort_step (k : list frame) (target : chain) (s : st) : res st :=
  match handlers s with
  | e :: r => if chain_eq target (handlers s) then Ok (set_cont k s)
              else Ok (emit [Left e] (set_handlers r (set_cont (FAbort k target :: k) s)))
  | [] => Ok (set_cont k s)
  end.
(** src/vm.c:3185-3196  find_prompt_frame *)
Fixpoint find_prompt (tag : nat) (k : list frame) : option (list frame * chain) :=
  match k with
  | [] => None
  | FPrompt t c :: r => if Nat.eqb t tag then Some (k, c) else find_prompt tag r
  | _ :: r => find_prompt tag r
  end.
Inductive label :=
| LCall                 (* user code calls something *)
| LReturn               (* and returns to the topmost frame *)
| LWind                 (* (dynamic-wind before body after): the before thunk is called *)
| LCapture              (* call/cc *)
| LThrow (i : nat)      (* the i-th captured continuation is called *)
| LPrompt (tag : nat)   (* call-with-continuation-prompt *)
| LAbort (tag : nat).   (* abort-current-continuation *)
(** One control operation.  Err: it cannot happen here (nothing to return to, no such continuation, or
    the error "Attempt to abort to stale prompt tag"). *)
Definition step (l : label) (s : st) : res st :=
  match l with
  | LCall => Ok (set_cont (FUser :: cont s) s)
  | LWind => Ok (set_cont (FBefore :: cont s) s)              (* src/vm.c:2626-2646; src/compile-i.scm:318, 325 *)
  | LCapture =>                                               (* src/vm.c:3612-3621, 1984-1998 *)
    Ok {| cont := cont s; handlers := handlers s; caps := caps s ++ [(cont s, handlers s)]; fresh := fresh s; trace := trace s |}
  | LThrow i => match nth_error (caps s) i with               (* src/vm.c:3593-3609 *)
                | Some (k, c) => throw_cont_body (calculate_handlers c (handlers s)) k c s
                | None => Err
                end
  | LPrompt tag => Ok (set_cont (FPrompt tag (handlers s) :: cont s) s) (* src/vm.c:3171-3183, 2162-2188 *)
  | LAbort tag => match find_prompt tag (cont s) with         (* src/vm.c:3240-3279 *)
                  | Some (k, target) => abort_step k target s
                  | None => Err
                  end
  | LReturn =>
    match cont s with
    | [] => Err
    | FUser :: k => Ok (set_cont k s)
    | FBefore :: k =>                                         (* src/vm.c:2648-2660; src/compile-i.scm:319, 326 *)
      let e := fresh s in
      Ok {| cont := FBody e :: k; handlers := e :: handlers s; caps := caps s; fresh := S e; trace := trace s ++ [Entered e] |}
    | FBody e :: k =>                                         (* src/vm.c:2662-2690; pop_dynamic_handlers 2548-2554 *)
      match handlers s with
      | [] => Panic                                           (* SCM_ASSERT(SCM_PAIRP(handlers)) *)
      | _ :: r => Ok (emit [Left e] (set_handlers r (set_cont (FAfter :: k) s)))
      end
    | FAfter :: k => Ok (set_cont k s)
    | FPrompt _ _ :: k => Ok (set_cont k s)
    | FThrow rest k c restore :: k0 =>                        (* src/vm.c:3547-3560  throw_cont_cc *)
      let s := set_cont k0 s in
      let s := match restore with
               | Some (e :: r) => emit [Entered e] (set_handlers (e :: r) s)
               | _ => s
               end in
      throw_cont_body rest k c s
    | FAbort k target :: _ => abort_step k target s
    end
  end.
Fixpoint run (ls : list label) (s : st) : res st :=
  match ls with
  | [] => Ok s
  | l :: r => do s <- step l s; run r s
  end.
(** src/vm.c:3458-3472  Scm_VMFlushDynamicHandlers, at exit *)
Definition flush (s : st) : st := emit (map Left (handlers s)) (set_handlers [] s).
