(** C30: immutable maps. *)
From Coq Require Import List Bool Sorted Lia Arith ZArith.
From Verif Require Import Outcome ImapModel ImapSpec ImapProofs.
Import ListNotations.

(** Any history of puts and deletes gives, without error, a map whose entry for every key is the
    one the history says; a map is a value: no operation changes an existing one. *)
Theorem imap_history : forall K V (cmp : K -> K -> comparison) (h : list (iop K V)), order_laws cmp ->
  exists t, run_history cmp h = Ok t /\
    forall k d, imap_get cmp t k d = match entry cmp h k, d with Some p, _ => Ok (snd p) | None, Some d => Ok d | None, None => Err end /\
                imap_exists cmp t k = match entry cmp h k with Some _ => true | None => false end.
Proof.
  intros K V cmp h O. destruct (history_ok cmp O h) as (t & E1 & S & F). exists t. split; [exact E1|]. intros k d.
  unfold imap_get, imap_exists. rewrite (get_ok cmp O k t S), F. destruct (entry cmp h k), d; auto.
Qed.
(** All traversals see the entries in increasing key order, and min and max are the ends *)
Theorem imap_traversals : forall K V (cmp : K -> K -> comparison) (h : list (iop K V)) t, order_laws cmp ->
  run_history cmp h = Ok t ->
  exists l, entries_of cmp h l /\
    (forall S (f : K * V -> S -> S) s, imap_fold t f s = fold_left (fun s p => f p s) l s) /\
    (forall S (f : K * V -> S -> S) s, imap_fold_right t f s = fold_right f s l) /\
    imap_iterate t = Ok l /\
    imap_min t = hd_error l /\ imap_max t = hd_error (rev l).
Proof.
  intros K V cmp h t O E1. destruct (history_ok cmp O h) as (t' & E2 & S & F). rewrite E1 in E2. injection E2 as <-.
  exists (inorder t). split; [split; [exact S|]; intros p; rewrite (find_in cmp O _ p S), F; reflexivity|].
  split; [intros; apply fold_ok|]. split; [intros; apply fold_right_ok|]. split; [apply imap_iterate_ok|]. split; [apply min_ok|apply max_ok].
Qed.
(** alist->imap: the puts of the list, first to last *)
Theorem imap_of_alist : forall K V (cmp : K -> K -> comparison) (l : list (K * V)), order_laws cmp ->
  populate cmp E l = run_history cmp (rev (map (fun p => Put (fst p) (snd p)) l)).
Proof. intros K V cmp l O. rewrite (populate_puts cmp O l [] E eq_refl), app_nil_r. reflexivity. Qed.
(** after puts only the tree stays balanced *)
Theorem imap_balanced_partial : forall K V (cmp : K -> K -> comparison) (h : list (iop K V)) t,
  Forall is_put h -> run_history cmp h = Ok t -> height t <= 2 * Nat.log2 (node_count t + 1).
Proof.
  intros K V cmp h t F E1. assert (exists n, rb t R n) as (n & H); [|exact (rb_bound t n H)].
  revert t E1. induction h as [|o h IH]; intros t E1; cbn [run_history] in E1.
  - injection E1 as <-. exists 0. constructor.
  - pose proof (Forall_inv F) as Po. destruct o as [k v|]; [|destruct Po]. destruct (run_history cmp h) as [t0| | |] eqn:E2; try discriminate. cbn [bind apply_op] in E1.
    destruct (IH (Forall_inv_tail F) _ eq_refl) as (n & Hn). exact (insert_rb cmp k v t0 t n Hn E1).
Qed.
(** but not after deletes: 30 puts and 22 deletes can leave a chain *)
Theorem imap_balanced_refuted : exists (h : list (iop Z Z)) t,
  run_history Z.compare h = Ok t /\ node_count t = 8 /\ height t = 8 /\ ~ height t <= 2 * Nat.log2 (node_count t + 1).
Proof.
  set (puts := rev (map (fun i => @Put Z Z (Z.of_nat i) 0%Z) (seq 0 30))).
  set (dels := map (@Delete Z Z) (filter (fun k => negb (existsb (Z.eqb k) [7; 15; 19; 23; 25; 27; 28; 29]%Z)) (map Z.of_nat (seq 0 30)))).
  exists (dels ++ puts). destruct (run_history Z.compare (dels ++ puts)) as [t| | |] eqn:E1; [|exfalso; vm_compute in E1; discriminate..].
  exists t. split; [reflexivity|]. vm_compute in E1. injection E1 as <-. vm_compute. repeat split. lia.
Qed.

(** the hypotheses are met: Z.compare is lawful, and so is a comparison with distinct equivalent keys *)
Example order_Z : order_laws Z.compare.
Proof.
  constructor.
  - intros. rewrite Z.compare_antisym. reflexivity.
  - intros x y z. rewrite !Z.compare_lt_iff. lia.
  - intros x y z H. apply Z.compare_eq in H. subst. reflexivity.
Qed.
Example order_ci : order_laws (fun x y => Z.compare (x / 10) (y / 10)).
Proof.
  constructor.
  - intros. rewrite Z.compare_antisym. reflexivity.
  - intros x y z. rewrite !Z.compare_lt_iff. lia.
  - intros x y z H. apply Z.compare_eq in H. rewrite H. reflexivity.
Qed.
Example imap_example : exists t, run_history Z.compare [Delete 2%Z; Put 2%Z 5; Put 1%Z 7; Put 3%Z 9; Put 1%Z 0] = Ok t /\ imap_iterate t = Ok [(1%Z, 7); (3%Z, 9)].
Proof. eexists. split; vm_compute; reflexivity. Qed.

Print Assumptions imap_history.
Print Assumptions imap_traversals.
Print Assumptions imap_of_alist.
Print Assumptions imap_balanced_partial.
Print Assumptions imap_balanced_refuted.
