(** C15: topological sorting (srfi.234, util.toposort).
    Nodes are compared by the eq argument, any equivalence relation; [topological], [acyclic],
    [path], [among] (membership) in TopoSpec are up to it.  The keys of the graph must be
    distinct. *)
From Coq Require Import List Bool ZArith Lia Arith.
From Verif Require Import Outcome TopoModel TopoSpec TopoProofs.
Import ListNotations.

(** the result is a topological order iff there is no cycle; otherwise the nodes reported are
    those on a cycle or reachable from one *)
Theorem topological_sort_details_partial : forall V (eqv : V -> V -> bool) (g : graph V),
  equivalence eqv -> distinct eqv (map fst g) ->
  exists a, topological_sort_details eqv g = Ok a /\
    match a with
    | Order l => topological eqv g l /\ acyclic eqv g
    | Circular rest => rest <> [] /\ forall x, among eqv x rest <-> exists c, path eqv g c c /\ path eqv g c x
    end.
Proof. intros V eqv g EQ D. apply (details_ok eqv EQ g D). Qed.

Lemma circular_not_acyclic : forall V (eqv : V -> V -> bool) (g : graph V) rest,
  equivalence eqv -> rest <> [] -> (forall x, among eqv x rest <-> exists c, path eqv g c c /\ path eqv g c x) -> ~ acyclic eqv g.
Proof.
  intros V eqv g rest EQ N H A. destruct rest as [|x rest]; [tauto|].
  destruct (proj1 (H x)) as (c & Pc & _); [exists x; split; [left; reflexivity|apply EQ]|]. exact (A c Pc).
Qed.
Theorem topological_sort_partial : forall V (eqv : V -> V -> bool) (g : graph V),
  equivalence eqv -> distinct eqv (map fst g) ->
  (acyclic eqv g -> exists l, topological_sort eqv g = Ok (Some l) /\ topological eqv g l) /\
  (~ acyclic eqv g -> topological_sort eqv g = Ok None).
Proof.
  intros V eqv g EQ D. destruct (details_ok eqv EQ g D) as (a & E & Ha).
  unfold topological_sort; rewrite E; cbn [bind]. destruct a as [l|rest].
  - destruct Ha as [Ht Hac]. split; [intros _; exists l; tauto|tauto].
  - destruct Ha as [N H]. split; [|reflexivity]. intros A. exfalso. exact (circular_not_acyclic V eqv g rest EQ N H A).
Qed.
Theorem util_topological_sort_partial : forall V (eqv : V -> V -> bool) (g : graph V),
  equivalence eqv -> distinct eqv (map fst g) ->
  (acyclic eqv g -> exists l, util_topological_sort eqv g = Ok l /\ topological eqv g l) /\
  (~ acyclic eqv g -> util_topological_sort eqv g = Err).
Proof.
  intros V eqv g EQ D. destruct (topological_sort_partial V eqv g EQ D) as [H1 H2]. unfold util_topological_sort. split; intros A.
  - destruct (H1 A) as (l & -> & T). exists l; split; [reflexivity|exact T].
  - rewrite (H2 A). reflexivity.
Qed.
(** the nodes argument maps the order through the vector *)
Theorem topological_sort_nodes_partial : forall V W (eqv : V -> V -> bool) (g : graph V) (ref : V -> res W) (f : V -> W),
  equivalence eqv -> distinct eqv (map fst g) -> (forall x, ref x = Ok (f x)) ->
  (acyclic eqv g -> exists l, topological_sort_nodes eqv ref g = Ok (Some (map f l)) /\ topological eqv g l) /\
  (~ acyclic eqv g -> topological_sort_nodes eqv ref g = Ok None).
Proof.
  intros V W eqv g ref f EQ D Rf. destruct (details_ok eqv EQ g D) as (a & E & Ha).
  assert (RL : forall l acc, replace_loop ref acc l = Ok (rev (map f l) ++ acc)).
  { induction l as [|x l IH]; intros acc; cbn [replace_loop map rev]; [reflexivity|].
    rewrite Rf; cbn [bind]. rewrite IH, <- app_assoc. reflexivity. }
  unfold topological_sort_nodes; rewrite E; cbn [bind]. destruct a as [l|rest].
  - destruct Ha as [Ht Hac]. split; [intros _|tauto]. exists l; split; [|exact Ht]. rewrite RL; cbn [bind].
    rewrite <- map_rev, rev_involutive, app_nil_r. reflexivity.
  - destruct Ha as [N H]. split; [|reflexivity]. intros A. exfalso. exact (circular_not_acyclic V eqv g rest EQ N H A).
Qed.

(** finding: with a node listed twice, an acyclic graph yields a wrong order *)
Theorem topological_sort_duplicate_key_refuted :
  exists (g : graph nat) l, topological_sort Nat.eqb g = Ok (Some l) /\ acyclic Nat.eqb g /\ ~ topological Nat.eqb g l.
Proof.
  exists [(1, [2]); (2, []); (2, [])], [2; 1; 2]. split; [reflexivity|]. split.
  - intros x P. assert (E : forall a b, edge Nat.eqb [(1, [2]); (2, []); (2, [])] a b -> a = 1 /\ b = 2).
    { intros a b (k & ts & Hin & Sk & (z & Hz & Sz)). unfold same in *. apply Nat.eqb_eq in Sk, Sz. subst.
      destruct Hin as [[= <- <-]|[[= <- <-]|[[= <- <-]|[]]]]; cbn in Hz; intuition congruence. }
    assert (forall a b, path Nat.eqb [(1, [2]); (2, []); (2, [])] a b -> a = 1 /\ b = 2) as F.
    { intros a b Q. induction Q as [a b Q|a b c Q Q2 IH]; [apply E, Q|]. apply E in Q. destruct IH. lia. }
    apply F in P. lia.
  - intros (D & _). destruct D as [N _]. apply N. exists 2; split; [right; left; reflexivity|reflexivity].
Qed.

(** the hypotheses are met by graphs with and without cycles *)
Lemma nat_equivalence : equivalence Nat.eqb.
Proof. split; intros; rewrite ?Nat.eqb_eq in *; congruence. Qed.
Example topo_example_hyp : distinct Nat.eqb (map fst [(1, [2; 3]); (2, [3; 4]); (3, [4; 4]); (5, [1])]).
Proof. cbn. repeat split; intros (y & H & S); apply Nat.eqb_eq in S; subst; cbn in H; intuition congruence. Qed.
Example topo_example : topological_sort Nat.eqb [(1, [2; 3]); (2, [3; 4]); (3, [4; 4]); (5, [1])] = Ok (Some [5; 1; 2; 3; 4]).
Proof. reflexivity. Qed.
Example topo_example_cycle : topological_sort_details Nat.eqb [(1, [2]); (2, [3]); (3, [2; 4]); (5, [1])] = Ok (Circular [4; 2; 3]).
Proof. reflexivity. Qed.

Print Assumptions topological_sort_details_partial.
Print Assumptions topological_sort_partial.
Print Assumptions util_topological_sort_partial.
Print Assumptions topological_sort_nodes_partial.
Print Assumptions topological_sort_duplicate_key_refuted.
