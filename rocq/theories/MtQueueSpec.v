(** What a thread-safe queue should do: a sequence, changed by one operation after the other. *)
From Coq Require Import List Bool ZArith.
From Verif Require Import MtQueueModel QueueSpec.
Import ListNotations.
Local Open Scope Z_scope.
Section S.
Context {V : Type}.
(** the content (None is the close marker), the maximum (negative: none), whether it is closed *)
Record sq := { qs : list (option V); smax : Z; sclosed : bool }.
(** the items a user put in *)
Fixpoint visible (c : list (option V)) : list V :=
  match c with [] => [] | Some v :: r => v :: visible r | None :: r => visible r end.
Definition room (q : sq) (n : Z) : Prop := smax q < 0 \/ Z.of_nat (List.length (qs q)) + n <= smax q.
Definition put_in (front : bool) (xs c : list (option V)) : list (option V) := if front then rev xs ++ c else c ++ xs.
Definition with_qs (q : sq) c : sq := {| qs := c; smax := smax q; sclosed := sclosed q |}.
(** seqstep q e q': in state q the answer recorded by e is right, and q' is the state after it. *)
Inductive seqstep (q : sq) : ev V -> sq -> Prop :=
| sPut t front xs : sclosed q = false -> room q (Z.of_nat (List.length xs)) ->
    seqstep q (EPut t front xs) (with_qs q (put_in front (map Some xs) (qs q)))
| sPutWait t front x close : smax q = 0 \/ room q 1 ->
    seqstep q (EPutWait t front x close) {| qs := put_in front [x] (qs q); smax := smax q; sclosed := sclosed q || close |}
| sClosed t b : sclosed q = true -> seqstep q (EClosed t b) q
| sFull t n : ~ room q n -> seqstep q (EFull t n) q
| sTake t v c : visible (qs q) = v :: visible c -> (exists ms, qs q = ms ++ Some v :: c /\ visible ms = []) ->
    seqstep q (ETake t (Some v)) (with_qs q c)
| sTakeNone t : visible (qs q) = [] -> seqstep q (ETake t None) (with_qs q [])
| sTakeWait t v c : visible (qs q) = v :: visible c -> (exists ms, qs q = ms ++ Some v :: c /\ visible ms = []) ->
    seqstep q (ETakeWait t (Some v)) (with_qs q c)
| sTakeWaitNone t : visible (qs q) = [] -> qs q <> [] -> seqstep q (ETakeWait t None) (with_qs q [])
| sClose t : seqstep q (EClose t) {| qs := qs q; smax := smax q; sclosed := true |}
| sTakeAll t xs : visible xs = visible (qs q) -> seqstep q (ETakeAll t xs) (with_qs q [])
| sPeek t x y c : qs q = x :: c -> y = last c x -> seqstep q (EPeek t (Some (x, y))) q
| sPeekNone t : qs q = [] -> seqstep q (EPeek t None) q
| sEmpty t b : (b = true <-> qs q = []) -> seqstep q (EEmpty t b) q
| sUnique t front cmp xs new : new = news (icmp cmp) (qs q) (map Some xs) -> (new = [] \/ room q (Z.of_nat (List.length new))) ->
    seqstep q (EUnique t front cmp xs) (with_qs q (put_in front new (qs q)))
| sRemove t pred hit : hit = existsb pred (qs q) ->
    seqstep q (ERemove t pred hit) (with_qs q (filter (fun x => negb (pred x)) (qs q)))
| sList t xs : xs = qs q -> seqstep q (EList t xs) q
| sFind t pred r : r = find pred (qs q) -> seqstep q (EFind t pred r) q
| sTimeout t : seqstep q (ETimeout t) q
| sSetMax t n : seqstep q (ESetMax t n) {| qs := qs q; smax := n; sclosed := sclosed q |}.
Inductive seqrun : sq -> list (ev V) -> sq -> Prop :=
| srNil q : seqrun q [] q
| srCons q e q' es q'' : seqstep q e q' -> seqrun q' es q'' -> seqrun q (e :: es) q''.
(** the items put in and the items taken out, in the order of the events *)
Fixpoint puts (es : list (ev V)) : list V :=
  match es with
  | [] => []
  | EPut _ _ xs :: r => xs ++ puts r
  | EPutWait _ _ (Some x) _ :: r => x :: puts r
  | _ :: r => puts r
  end.
Fixpoint takes (es : list (ev V)) : list V :=
  match es with
  | [] => []
  | ETake _ (Some v) :: r | ETakeWait _ (Some v) :: r => v :: takes r
  | ETakeAll _ xs :: r => visible xs ++ takes r
  | _ :: r => takes r
  end.
(** nothing was added by the -unique procedures or removed by remove-from-queue! *)
Fixpoint plain (es : list (ev V)) : bool :=
  match es with [] => true | EUnique _ _ _ _ :: _ | ERemove _ _ _ :: _ => false | _ :: r => plain r end.
(** nothing was pushed in front *)
Fixpoint no_push (es : list (ev V)) : bool :=
  match es with [] => true | EPut _ true _ :: _ | EPutWait _ true _ _ :: _ => false | _ :: r => no_push r end.
(** the maximum was not changed *)
Fixpoint fixed_max (es : list (ev V)) : bool :=
  match es with [] => true | ESetMax _ _ :: _ => false | _ :: r => fixed_max r end.
(** In no step of the execution does a timeout (or a signal during a timed wait) end the wait of a
    thread while another one is inside an operation holding the big lock. *)
Fixpoint calm (ls : list (nat * action V)) (s : st V) : bool :=
  match ls with
  | [] => true
  | (t, a) :: r =>
    (match a with ATimeout | AIntr => match locker s with None => true | Some _ => false end | _ => true end)
    && match step t a s with None => true | Some (s', _) => calm r s' end
  end.
End S.
Arguments sq : clear implicits.
