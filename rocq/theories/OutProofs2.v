(** Output ports: every procedure on a buffered file *)
From Coq Require Import ZArith List Bool Lia.
From Verif Require Import Outcome Utf8Model Utf8Spec Utf8Proofs StringSpec StringProofs SearchProofs2 PortModel PortProofs OutModel OutSpec OutProofs.
Import ListNotations.
Local Open Scope nat_scope.
Ltac Zify.zify_post_hook ::= idtac.

(** ** Columns *)
Lemma bytes_of_enc cs : bytes_of cs = enc cs. Proof. reflexivity. Qed.
Lemma bytes_of_all cs bs : encodes_all cs bs -> Forall valid_char cs /\ bs = bytes_of cs.
Proof. intros H. now apply encodes_all_enc in H. Qed.
Lemma all_bytes_of cs : Forall valid_char cs -> encodes_all cs (bytes_of cs).
Proof. intros H. apply encodes_all_enc. auto. Qed.
Lemma length_count_enc : forall cs n, Forall valid_char cs -> length (bytes_of cs) <= n -> length_count n (bytes_of cs) = Z.of_nat (length cs).
Proof.
  induction cs as [|c cs IH]; intros n V L; [destruct n; reflexivity|]. inversion V as [|? ? Vc V']; subst. destruct (nfollows_putc c Vc) as (b & bs & E & _ & N & _).
  unfold bytes_of in *. cbn [map concat] in *. rewrite (char_put_putc c) in * by (destruct Vc; auto). rewrite E in *. cbn [app length] in *. rewrite app_length in L. destruct n as [|n]; [lia|]. cbn [length_count]. rewrite N.
  destruct (Z.ltb_spec (Z.of_nat (length bs)) 0); [lia|]. rewrite Nat2Z.id. replace (length bs + 1) with (S (length bs)) by lia. cbn [skipn]. rewrite skipn_app, skipn_all, Nat.sub_diag. cbn [skipn app]. rewrite IH by (auto; lia). lia.
Qed.
Lemma column_loop_found r : forall l post, ~ In 10%Z l -> column_loop (l ++ 10%Z :: r) post = length_count (length (rev l ++ post)) (rev l ++ post).
Proof.
  induction l as [|b l IH]; intros post H; cbn [app column_loop rev].
  - reflexivity.
  - destruct (Z.eqb_spec b 10) as [->|N]; [exfalso; apply H; now left|]. rewrite IH by (intros X; apply H; now right). now rewrite <- app_assoc.
Qed.
Lemma column_loop_none : forall l post, ~ In 10%Z l -> column_loop l post = (-1)%Z.
Proof. induction l as [|b l IH]; intros post H; cbn [column_loop]; auto. destruct (Z.eqb_spec b 10) as [->|N]; [exfalso; apply H; now left|]. apply IH. intros X. apply H. now right. Qed.
Lemma newline_bytes cs : Forall valid_char cs -> In 10%Z (bytes_of cs) -> In 10%Z cs.
Proof.
  induction cs as [|c cs IH]; intros V H; [destruct H|]. inversion V as [|? ? Vc V']; subst. unfold bytes_of in H. cbn [map concat] in H. apply in_app_or in H as [H|H]; [|right; now apply IH].
  left. destruct (Z_lt_le_dec c 128) as [L|L].
  - unfold char_put in H. destruct (Z.leb_spec 0x80 c); [lia|]. destruct H as [H|[]]. destruct Vc as (V0 & _). unfold u8 in *. rewrite Z.mod_small in H by lia. auto.
  - exfalso. destruct (put_shape c Vc) as (b & bs & E & Hb & Hc). rewrite E in H. destruct H as [->|H].
    + pose proof (putc_encodes c Vc) as (n & Hn & Hl & Hm & X). rewrite E in X. unfold row_encode in X. injection X as X _. destruct n as [|n]; [unfold row_limit in Hl; cbn in Hl; lia|].
      assert (192 <= row_lead (S n))%Z by (do 5 (destruct n as [|n]; [unfold row_lead; cbn; lia|]); lia). assert (0 <= c / 64 ^ Z.of_nat (S n))%Z by (apply Z.div_pos; [destruct Vc; auto|apply Z.pow_pos_nonneg; lia]). lia.
    + apply Hc in H. unfold cont in H. lia.
Qed.
Lemma last_newline : forall cs : list Z, ~ In 10%Z cs \/ exists ca cb, cs = ca ++ 10%Z :: cb /\ ~ In 10%Z cb.
Proof.
  induction cs as [|c cs IH]; [now left|]. destruct IH as [N|(ca & cb & -> & N)].
  - destruct (Z.eq_dec c 10) as [->|X]; [right; exists [], cs; auto|left; intros [Y|Y]; [congruence|contradiction]].
  - right. exists (c :: ca), cb. auto.
Qed.
Lemma column_after_none : forall cs col, ~ In 10%Z cs -> column_after col cs = (col + Z.of_nat (length cs))%Z.
Proof. induction cs as [|c cs IH]; intros col H; cbn [column_after length]; [lia|]. destruct (Z.eqb_spec c 10) as [->|N]; [exfalso; apply H; now left|]. rewrite IH by (intros X; apply H; now right). lia. Qed.
Lemma column_after_app cs1 : forall cs2 col, column_after col (cs1 ++ cs2) = column_after (column_after col cs1) cs2.
Proof. induction cs1 as [|c cs1 IH]; intros cs2 col; cbn [app column_after]; auto. Qed.
Lemma column_ok cs col len : Forall valid_char cs -> len = Z.of_nat (length cs) ->
  (if (column_count (bytes_of cs) <? 0)%Z then col + len else column_count (bytes_of cs))%Z = column_after col cs.
Proof.
  intros V ->. unfold column_count. destruct (last_newline cs) as [N|(ca & cb & -> & N)].
  - rewrite column_loop_none. { cbn. now rewrite column_after_none. } intros X. apply N. apply newline_bytes; auto. now apply in_rev.
  - apply Forall_app in V as (Va & Vb). inversion Vb as [|? ? _ Vb']; subst. assert (Eb : bytes_of (ca ++ 10%Z :: cb) = bytes_of ca ++ 10%Z :: bytes_of cb) by (unfold bytes_of; rewrite map_app, concat_app; reflexivity).
    rewrite Eb, rev_app_distr. cbn [rev]. rewrite <- app_assoc. cbn [app]. rewrite column_loop_found by (intros X; apply in_rev in X; apply N; now apply newline_bytes).
    rewrite rev_involutive, app_nil_r. rewrite length_count_enc by auto. destruct (Z.ltb_spec (Z.of_nat (length cb)) 0); [lia|]. rewrite column_after_app. cbn [column_after]. rewrite Z.eqb_refl, column_after_none by auto. lia.
Qed.

Section Steps.
Context (size : nat) (Hsize : 1 <= size) (oracle : nat -> nat) (full : bool) (Hfull : full = true -> fullw size oracle).
Notation oinv := (oinv size oracle).
Lemma oinv_col p s c : oinv p s -> oinv (set_col p c) (mkW (w_base s) (w_start s) (w_written s) (w_shown s) c (w_mode s) (w_closed s)).
Proof. intros [A B C D E F G H J K L]. constructor; cbn; auto. Qed.
Lemma check_ok {A} p s (x : res A) : oinv p s -> w_closed s = false -> check_open p x = x.
Proof. intros I H. unfold check_open. now rewrite (oi_closed _ _ _ _ I), H. Qed.
Lemma after_block_ok p s : oinv p s -> exists p' k, after_block p = Ok p' /\ oinv p' (show s k) /\ w_shown s <= k <= length (w_written s)
  /\ (w_mode s = BNone -> k = length (w_written s)) /\ (w_mode s = BLine -> full = true -> forall i, nth_error (w_written s) i = Some 10%Z -> i < k).
Proof.
  intros I. pose proof I as [A B C D E F G H J K L]. unfold after_block. rewrite G. assert (Sh : oinv p (show s (w_shown s))) by (destruct s; exact I). destruct (w_mode s) eqn:M.
  - exists p, (w_shown s). repeat (split; auto); try lia; discriminate.
  - destruct (existsb (Z.eqb 10) (o_buf p)) eqn:Ex.
    + destruct (flush_ok size Hsize oracle p s (-1) false I) as (p' & k & E1 & I1 & K1 & _ & K2 & _); [discriminate|]. exists p', k. split; auto. split; auto. split; auto. split; [discriminate|]. intros _ Fu i Hi. rewrite (K2 (Hfull Fu)). apply nth_error_Some. now rewrite Hi.
    + exists p, (w_shown s). split; auto. split; auto. split; [lia|]. split; [discriminate|]. intros _ _ i Hi. destruct (Nat.lt_ge_cases i (w_shown s)) as [Lt|Ge]; auto. exfalso.
      assert (X : existsb (Z.eqb 10) (o_buf p) = true); [|congruence]. apply existsb_exists. exists 10%Z. split; auto. rewrite C. apply nth_error_In with (i - w_shown s).
      rewrite nth_error_skipn, skipn_skipn', <- nth_error_skipn. now replace (w_shown s + (i - w_shown s)) with i by lia.
  - destruct (flush_ok size Hsize oracle p s 0 true I) as (p' & k & E1 & I1 & K1 & K2 & _); [lia|]. exists p', k. split; auto. split; auto. split; auto. split; auto. discriminate.
Qed.
Lemma block_ok p s bs : oinv p s -> exists p' k, (do p1 <- bufport_write (length bs + 2) (set_flushed p false) bs; after_block p1) = Ok p' /\ oinv p' (wrote s bs k (w_col s)) /\ shown_ok full s Block bs k.
Proof.
  intros I. destruct (write_ok size Hsize oracle (length bs + 2) (set_flushed p false) s bs) as (p1 & k & E1 & I1 & K1 & F1); auto.
  { now apply oinv_flushed. } { destruct (length (o_buf (set_flushed p false)) <? size); lia. }
  rewrite E1. cbn [bind]. destruct (after_block_ok p1 _ I1) as (p2 & k2 & E2 & I2 & K2 & K3 & K4). exists p2, k2. split; auto. split; [exact I2|]. cbn [wrote w_shown w_written w_mode] in *. rewrite app_length in *.
  split; [lia|]. split; [lia|]. split; [intros M _; auto|]. intros M Fu _ i Hi. apply (K4 M Fu). rewrite nth_error_app2 by lia. now replace (length (w_written s) + i - length (w_written s)) with i by lia.
Qed.
Lemma puts_ok p s cs : oinv p s -> w_closed s = false -> Forall valid_char cs ->
  exists p' k, puts p (bytes_of cs) (length cs) = Ok p' /\ oinv p' (wrote s (bytes_of cs) k (column_after (w_col s) cs)) /\ shown_ok full s Block (bytes_of cs) k.
Proof.
  intros I Hc V. unfold puts. rewrite (check_ok p s) by auto. destruct (block_ok p s (bytes_of cs) I) as (p1 & k & E & I1 & K).
  destruct (bufport_write _ _ _) as [p0| | |] eqn:Ew; cbn [bind] in *; try discriminate. rewrite E. cbn [bind]. eexists. exists k. split; [reflexivity|]. split; auto. rewrite (oi_col _ _ _ _ I1). cbn [wrote w_col]. rewrite column_ok by auto. exact (oinv_col _ _ _ I1).
Qed.
Lemma putz_ok p s bs : oinv p s -> w_closed s = false ->
  exists p' k col, putz p bs = Ok p' /\ oinv p' (wrote s bs k col) /\ shown_ok full s Block bs k /\ (forall cs, encodes_all cs bs -> col = column_after (w_col s) cs).
Proof.
  intros I Hc. unfold putz. rewrite (check_ok p s) by auto. destruct (block_ok p s bs I) as (p1 & k & E & I1 & K).
  destruct (bufport_write _ _ _) as [p0| | |] eqn:Ew; cbn [bind] in *; try discriminate. rewrite E. cbn [bind]. eexists. exists k. eexists. split; [reflexivity|]. split; [exact (oinv_col _ _ _ I1)|]. split; auto.
  intros cs Hcs. apply bytes_of_all in Hcs as (V & ->). rewrite (oi_col _ _ _ _ I1). cbn [wrote w_col]. rewrite column_ok; auto. now apply length_count_enc.
Qed.
Lemma putb_ok p s b : oinv p s -> w_closed s = false ->
  exists p' k, putb p b = Ok p' /\ oinv p' (wrote s [b] k (if (b =? 10)%Z then 0%Z else w_col s)) /\ shown_ok full s Byte [b] k.
Proof.
  intros I Hc. unfold putb. rewrite (check_ok p s) by auto. set (p0 := set_flushed p false). assert (I0 : oinv p0 s) by (now apply oinv_flushed). rewrite (oi_size _ _ _ _ I0).
  assert (X : exists p1 k, (if size <=? length (o_buf p0) then bufport_flush p0 (Z.of_nat (length (o_buf p0))) false else Ok p0) = Ok p1 /\ oinv p1 (show s k) /\ w_shown s <= k <= length (w_written s) /\ length (o_buf p1) < size /\ o_flushed p1 = false).
  { assert (Lb : length (o_buf p0) = length (w_written s) - w_shown s) by (rewrite (oi_buf _ _ _ _ I0); apply skipn_length). destruct (Nat.leb_spec size (length (o_buf p0))) as [L|L].
    - destruct (flush_ok size Hsize oracle p0 s (Z.of_nat (length (o_buf p0))) false I0) as (p1 & k & E1 & I1 & K1 & _ & _ & K2 & F1); [discriminate|]. exists p1, k. split; auto. split; auto. split; auto. split; [|rewrite F1; auto].
      pose proof (oi_len _ _ _ _ I0). rewrite (oi_buf _ _ _ _ I1). cbn [show w_written w_shown]. rewrite skipn_length. lia.
    - exists p0, (w_shown s). split; auto. split; [destruct s; exact I0|]. pose proof (oi_shown _ _ _ _ I0). split; [lia|]. auto. }
  destruct X as (p1 & k & E1 & I1 & K1 & L1 & F1). rewrite E1. cbn [bind]. rewrite (oi_size _ _ _ _ I1). unfold assert. assert (length (o_buf p1) <? size = true) as -> by (apply Nat.ltb_lt; lia).
  destruct (put_ok size Hsize oracle p1 _ [b] I1) as (p2 & E2 & I2 & F2); auto; [cbn [length]; lia|]. rewrite E2. cbn [bind]. rewrite (oi_mode _ _ _ _ I2). cbn [wrote show w_mode w_shown w_col] in *.
  assert (X : exists p3 k3, (match w_mode s with BNone => bufport_flush p2 1 false | _ => Ok p2 end) = Ok p3 /\ oinv p3 (wrote s [b] k3 (w_col s)) /\ k <= k3 <= length (w_written s) + 1 /\ (w_mode s = BNone -> full = true -> k3 = length (w_written s) + 1)).
  { change (mkW _ _ _ _ _ _ _) with (wrote s [b] k (w_col s)) in I2. destruct (w_mode s) eqn:M.
    - exists p2, k. split; auto. split; auto. split; [lia|discriminate].
    - exists p2, k. split; auto. split; auto. split; [lia|discriminate].
    - destruct (flush_ok size Hsize oracle p2 _ 1 false I2) as (p3 & k3 & E3 & I3 & K3 & _ & K4 & _ & _); [discriminate|]. exists p3, k3. cbn [wrote w_shown w_written] in *. rewrite app_length in *. cbn [length] in *. split; auto. }
  destruct X as (p3 & k3 & E3 & I3 & K3 & K4). rewrite E3. cbn [bind]. eexists. exists k3. split; [reflexivity|]. split.
  - destruct (b =? 10)%Z; [exact (oinv_col _ _ _ I3)|exact I3].
  - cbn [length]. split; [lia|]. split; [cbn [length]; lia|]. split; [intros M [X|X]; [discriminate|cbn [length]; auto]|]. intros _ _ X. now contradiction X.
Qed.
Lemma putc_ok p s c : oinv p s -> w_closed s = false -> valid_char c ->
  (putc_port p c = Panic /\ (128 <= c)%Z /\ (full && (6 <=? size))%bool = false)
  \/ exists p' k, putc_port p c = Ok p' /\ oinv p' (wrote s (char_put c) k (column_after (w_col s) [c])) /\ shown_ok full s Char (char_put c) k.
Proof.
  intros I Hc V. unfold putc_port. rewrite (check_ok p s) by auto. set (p0 := set_flushed p false). assert (I0 : oinv p0 s) by (now apply oinv_flushed). rewrite (oi_size _ _ _ _ I0).
  assert (Lc : length (char_put c) = Z.to_nat (nbytes c) /\ 1 <= length (char_put c) <= 6).
  { destruct (char_put_shape c V) as (b & bs & E & _ & L5). split; [|rewrite E; cbn [length]; lia]. rewrite char_put_putc by (destruct V; auto). pose proof (putc_length c V). lia. }
  destruct Lc as (Lc & Lc'). rewrite <- Lc.
  assert (X : exists p1 k, (if size <? length (o_buf p0) + length (char_put c) then bufport_flush p0 (Z.of_nat (length (o_buf p0))) false else Ok p0) = Ok p1 /\ oinv p1 (show s k) /\ w_shown s <= k <= length (w_written s) /\ o_flushed p1 = false
     /\ (length (char_put c) = 1 \/ (full && (6 <=? size))%bool = true -> length (o_buf p1) + length (char_put c) <= size)).
  { assert (Lb : length (o_buf p0) = length (w_written s) - w_shown s) by (rewrite (oi_buf _ _ _ _ I0); apply skipn_length). destruct (Nat.ltb_spec size (length (o_buf p0) + length (char_put c))) as [L|L].
    - destruct (flush_ok size Hsize oracle p0 s (Z.of_nat (length (o_buf p0))) false I0) as (p1 & k & E1 & I1 & K1 & _ & K3 & K2 & F1); [discriminate|]. exists p1, k. split; auto. split; auto. split; auto. split; [rewrite F1; auto|].
      pose proof (oi_len _ _ _ _ I0). rewrite (oi_buf _ _ _ _ I1). cbn [show w_written w_shown]. rewrite skipn_length. intros [X|X]; [lia|]. apply andb_true_iff in X as (X & Y). apply Nat.leb_le in Y. specialize (K3 (Hfull X)). lia.
    - exists p0, (w_shown s). split; auto. split; [destruct s; exact I0|]. pose proof (oi_shown _ _ _ _ I0). split; [lia|]. auto. }
  destruct X as (p1 & k & E1 & I1 & K1 & F1 & L1). rewrite E1. cbn [bind]. rewrite (oi_size _ _ _ _ I1). unfold assert. destruct (Nat.leb_spec (length (o_buf p1) + length (char_put c)) size) as [R|R].
  2:{ left. split; auto. split.
      - destruct (Z_lt_le_dec c 128) as [X|X]; auto. exfalso. assert (length (char_put c) = 1); [|lia]. unfold char_put. destruct (Z.leb_spec 0x80 c); [lia|reflexivity].
      - destruct (full && (6 <=? size))%bool; auto. lia. }
  right. destruct (put_ok size Hsize oracle p1 _ (char_put c) I1) as (p2 & E2 & I2 & F2); auto. rewrite E2. cbn [bind]. rewrite (oi_mode _ _ _ _ I2). cbn [wrote show w_mode w_shown w_col] in *. change (mkW _ _ _ _ _ _ _) with (wrote s (char_put c) k (w_col s)) in I2.
  assert (X : exists p3 k3, (match w_mode s with BLine => if (c =? 10)%Z then bufport_flush p2 (Z.of_nat (length (char_put c))) false else Ok p2 | BNone => bufport_flush p2 (Z.of_nat (length (char_put c))) false | BFull => Ok p2 end) = Ok p3
     /\ oinv p3 (wrote s (char_put c) k3 (w_col s)) /\ k <= k3 <= length (w_written s) + length (char_put c) /\ (w_mode s = BNone -> full = true -> k3 = length (w_written s) + length (char_put c)) /\ (w_mode s = BLine -> full = true -> c = 10%Z -> k3 = length (w_written s) + length (char_put c))).
  { destruct (flush_ok size Hsize oracle p2 _ (Z.of_nat (length (char_put c))) false I2) as (p3 & k3 & E3 & I3 & K3 & _ & K4 & _ & _); [discriminate|]. cbn [wrote w_shown w_written] in K3, K4. rewrite app_length in K3, K4. destruct (w_mode s) eqn:M.
    - exists p2, k. split; auto. split; auto. split; [lia|]. split; discriminate.
    - destruct (Z.eqb_spec c 10) as [->|N].
      + exists p3, k3. split; auto. split; auto.
      + exists p2, k. split; auto. split; auto. split; [lia|]. split; [discriminate|]. intros _ _ X. contradiction.
    - exists p3, k3. split; auto. split; auto. }
  destruct X as (p3 & k3 & E3 & I3 & K3 & K4 & K5). rewrite E3. cbn [bind]. eexists. exists k3. split; [reflexivity|]. split.
  - rewrite (oi_col _ _ _ _ I3). cbn [wrote w_col column_after]. exact (oinv_col _ _ _ I3).
  - split; [lia|]. split; [lia|]. split; [intros M [X|X]; [discriminate|auto]|]. intros M Fu _ i Hi.
    assert (Hin : In 10%Z (bytes_of [c])) by (unfold bytes_of; cbn [map concat]; rewrite app_nil_r; eapply nth_error_In; eauto). apply newline_bytes in Hin; [|repeat constructor; auto; apply V]. destruct Hin as [Hin|[]].
    rewrite (K5 M Fu Hin). assert (i < length (char_put c)) by (apply nth_error_Some; now rewrite Hi). lia.
Qed.
Lemma oflush_ok p s : oinv p s -> w_closed s = false -> exists p', flush_port p = Ok p' /\ oinv p' (synced s).
Proof.
  intros I Hc. unfold flush_port. destruct (o_flushed p) eqn:F.
  - exists p. split; auto. pose proof (oi_flushed _ _ _ _ I F) as B. pose proof (oi_buf _ _ _ _ I) as B'. rewrite B in B'. symmetry in B'. apply (f_equal (@length Z)) in B'. rewrite skipn_length in B'. cbn [length] in B'.
    replace (synced s) with s; auto. pose proof (oi_shown _ _ _ _ I). destruct s. unfold synced. cbn in *. f_equal. lia.
  - rewrite (check_ok p s) by auto. destruct (flush_ok size Hsize oracle p s 0 true I) as (p1 & k & E1 & I1 & K1 & K2 & _); [lia|]. rewrite E1. cbn [bind]. eexists. split; [reflexivity|]. rewrite K2 in I1 by auto. fold (synced s) in I1. change (show s (length (w_written s))) with (synced s) in I1.
    pose proof I1 as [A B C D E F' G H J K L]. constructor; cbn; auto. intros _. rewrite C. cbn [synced w_written w_shown]. apply skipn_all.
Qed.
Lemma oclose_ok p s : oinv p s -> w_closed s = false -> exists p', close_port p = Ok p' /\ oinv p' (mkW (w_base s) (w_start s) (w_written s) (length (w_written s)) (w_col s) (w_mode s) true).
Proof.
  intros I Hc. unfold close_port. rewrite (oi_closed _ _ _ _ I), Hc. destruct (flush_ok size Hsize oracle p s 0 true I) as (p1 & k & E1 & I1 & K1 & K2 & _); [lia|]. rewrite E1. cbn [bind]. eexists. split; [reflexivity|]. rewrite K2 in I1 by auto.
  destruct I1 as [A B C D E F' G H J K L]. constructor; cbn in *; auto.
Qed.
Lemma otell_ok p s : oinv p s -> w_closed s = false -> otell p = Ok (Z.of_nat (w_pos s)).
Proof. intros I Hc. unfold otell. rewrite (check_ok p s) by auto. f_equal. pose proof (oi_shown _ _ _ _ I). rewrite (oi_off _ _ _ _ I), (oi_buf _ _ _ _ I), skipn_length. unfold w_pos. lia. Qed.
Lemma oset_position_ok p s off w : oinv p s -> exists p', 
  if (wtarget s off w <? 0)%Z then oset_position p off w = Ok (p', None) /\ oinv p' (synced s)
  else oset_position p off w = Ok (p', Some (wtarget s off w)) /\ oinv p' (moved_to s (Z.to_nat (wtarget s off w))).
Proof.
  intros I. unfold oset_position. destruct (flush_ok size Hsize oracle p s 0 true I) as (p1 & k & E1 & I1 & K1 & K2 & _); [lia|]. rewrite E1. cbn [bind]. rewrite K2 in I1 by auto. change (show s (length (w_written s))) with (synced s) in I1.
  pose proof I1 as [A B C D E F' G H J K L]. assert (V : w_visible (synced s) = w_file s) by (unfold w_visible, w_file; cbn [synced w_base w_start w_written w_shown]; now rewrite firstn_all). rewrite V in A.
  assert (Et : (match w with SeekSet => off | SeekCur => Z.of_nat (o_off p1) + off | SeekEnd => Z.of_nat (length (o_file p1)) + off end)%Z = wtarget s off w).
  { unfold wtarget. rewrite A, B. cbn [synced w_start w_shown]. unfold w_pos. destruct w; auto. }
  cbv zeta. rewrite Et. destruct (Z.ltb_spec (wtarget s off w) 0) as [Lt|Ge].
  - exists p1. auto.
  - eexists. split; [reflexivity|]. cbn [synced w_shown w_written] in C. rewrite skipn_all in C.
    constructor; cbn [set_o o_file o_off o_buf o_size o_mode o_flushed o_closed o_col o_oracle moved_to w_base w_start w_written w_shown w_col w_mode w_closed length]; auto; rewrite ?C; auto; cbn [length]; try lia.
Qed.
End Steps.
