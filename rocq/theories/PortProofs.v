(** Input ports: the source below the pushback *)
From Coq Require Import ZArith List Bool Lia.
From Verif Require Import Outcome Utf8Model Utf8Spec Utf8Proofs StringSpec PortModel PortSpec.
Import ListNotations.
Local Open Scope nat_scope.

(** the bytes not yet taken from the source, and how many have been *)
Definition avail (p : port) : list Z := p_buf p ++ skipn (p_pos p) (p_all p).
Definition spos (p : port) : Z := (Z.of_nat (p_pos p) - Z.of_nat (length (p_buf p)))%Z.
Definition kind_ok (k : pkind) : Prop := match k with KFile m size => 1 <= size /\ (m = BNone -> 5 <= size) | KStr => True end.
Definition buf_ok (p : port) : Prop := match p_kind p with KFile _ size => length (p_buf p) <= size | KStr => p_buf p = [] end.

Record moved (k : nat) (p p' : port) : Prop := Mv {
  mv_kind : p_kind p' = p_kind p; mv_all : p_all p' = p_all p; mv_scr : p_scr p' = p_scr p; mv_ung : p_ung p' = p_ung p;
  mv_avail : avail p' = skipn k (avail p); mv_pos : spos p' = (spos p + Z.of_nat k)%Z; mv_buf : buf_ok p' }.

Lemma skipn_skipn' {A} : forall n m (l : list A), skipn n (skipn m l) = skipn (m + n) l.
Proof. intros n m. induction m as [|m IH]; intros l; [reflexivity|]. destruct l as [|x l]; cbn [skipn Nat.add]; [now destruct n|apply IH]. Qed.
Lemma moved_trans j k p q r : moved j p q -> moved k q r -> moved (j + k) p r.
Proof.
  intros [] []. constructor; try congruence; [|lia]. rewrite mv_avail1, mv_avail0. apply skipn_skipn'.
Qed.
Lemma moved_0 p : buf_ok p -> moved 0 p p.
Proof. intros H. constructor; auto. lia. Qed.
Lemma set_scr_moved k p p' s s' : moved k p p' -> moved k (set_scr p s) (set_scr p' s) /\ (p_scr p = s' -> p_scr p' = s').
Proof. intros []. split; [constructor; auto|congruence]. Qed.

(** ** Filling *)
Lemma filler_ok p size cnt : length (p_buf p) + cnt <= size -> p_kind p = KFile BFull size \/ p_kind p = KFile BLine size \/ p_kind p = KFile BNone size -> exists p' r, filler p size cnt = Ok (p', r)
  /\ moved 0 p p' /\ length (p_buf p') = length (p_buf p) + r /\ r <= cnt /\ (r = 0 -> cnt = 0 \/ length (p_all p) - p_pos p = 0) /\ p_pos p' = p_pos p + r /\ r <= length (p_all p) - p_pos p.
Proof.
  intros Hs Hk. unfold filler. set (left := length (p_all p) - p_pos p).
  set (r := if (cnt =? 0) || (left =? 0) then 0 else _).
  assert (Hr : r <= cnt /\ r <= left /\ (r = 0 -> cnt = 0 \/ left = 0)).
  { unfold r. destruct (Nat.eqb_spec cnt 0), (Nat.eqb_spec left 0); cbn [orb]; lia. }
  assert (Le : length (p_buf p) + r <=? size = true) by (apply Nat.leb_le; lia). rewrite Le. eexists _, r. split; [reflexivity|].
  assert (Ll : length (firstn r (skipn (p_pos p) (p_all p))) = r) by (rewrite firstn_length, skipn_length; fold left; lia).
  split; [|cbn [set_buf p_buf p_pos]; rewrite app_length, Ll; intuition lia].
  constructor; cbn [set_buf p_kind p_all p_scr p_ung]; auto.
  - unfold avail. cbn [set_buf p_buf p_pos p_all skipn]. rewrite <- app_assoc. f_equal. rewrite <- (firstn_skipn r (skipn (p_pos p) (p_all p))) at 2. now rewrite skipn_skipn'.
  - unfold spos. cbn [set_buf p_buf p_pos]. rewrite app_length, Ll. lia.
  - unfold buf_ok. cbn [set_buf p_kind p_buf]. destruct Hk as [E|[E|E]]; rewrite E, app_length, Ll; lia.
Qed.

Lemma fill_loop_S f p size toread nread min al : fill_loop (S f) p size toread nread min al =
    (do x <- filler p size (toread - nread);
    if snd x =? 0 then Ok (fst x, nread)
    else if negb al && (nread + snd x <? min) then fill_loop f (fst x) size toread (nread + snd x) min al
    else Ok (fst x, nread + snd x)).
Proof. reflexivity. Qed.
Lemma fill_loop_ok size toread min al m : toread <= size -> forall fuel p nread, p_kind p = KFile m size -> length (p_buf p) = nread -> nread <= toread -> 1 <= toread -> 1 <= fuel -> min <= nread + fuel ->
  exists p' r, fill_loop fuel p size toread nread min al = Ok (p', r) /\ moved 0 p p' /\ length (p_buf p') = r /\ nread <= r
   /\ (nread = 0 -> r = 0 -> length (p_all p) - p_pos p = 0).
Proof.
  intros Ht. induction fuel as [|f IH]; intros p nread Hk Hl Hn H1 Hf Hm; [lia|]. rewrite fill_loop_S.
  destruct (filler_ok p size (toread - nread)) as (p1 & r & E & M & L & Rc & R0 & P & _); [lia|destruct m; auto|].
  rewrite E. cbn [bind fst snd]. destruct (Nat.eqb_spec r 0) as [Z|Z].
  - exists p1, nread. split; auto. split; auto. split; [lia|]. split; auto. intros N0 _. specialize (R0 Z). lia.
  - destruct (negb al && (nread + r <? min)) eqn:B.
    + apply andb_true_iff in B as (_ & B). apply Nat.ltb_lt in B.
      destruct (IH p1 (nread + r)) as (p' & r' & E' & M' & L' & Le & _); try lia. { rewrite (mv_kind _ _ _ M). auto. }
      exists p', r'. split; auto. split; [exact (moved_trans 0 0 _ _ _ M M')|]. split; auto. split; lia.
    + exists p1, (nread + r). split; auto. split; auto. split; [lia|]. split; lia.
Qed.
Lemma fill_ok p m size min al : p_kind p = KFile m size -> kind_ok (p_kind p) -> p_buf p = [] -> 1 <= min -> (m = BNone -> min <= size) ->
  exists p' r, bufport_fill p m size min al = Ok (p', r) /\ moved 0 p p' /\ length (p_buf p') = r /\ (r = 0 -> avail p = []).
Proof.
  intros Hk Ho Hb H1 Hn. rewrite Hk in Ho. cbn in Ho. unfold bufport_fill. rewrite Hb. cbn [length]. rewrite Nat.sub_0_r. destruct (Nat.eqb_spec min 0); [lia|].
  destruct (fill_loop_ok size (match m with BNone => min | _ => size end) min al m) with (fuel := S min) (p := p) (nread := 0) as (p' & r & E & M & L & _ & R0); auto; try lia.
  - destruct m; try lia; apply Hn; auto.
  - now rewrite Hb.
  - destruct m; lia.
  - exists p', r. split; auto. split; auto. split; auto. intros ->. unfold avail. rewrite Hb. cbn [app]. apply length_zero_iff_nil. rewrite skipn_length. auto.
Qed.

(** ** Single bytes *)
Lemma take_moved p n : n <= length (p_buf p) -> buf_ok p -> moved n p (set_buf p (p_pos p) (skipn n (p_buf p)) (p_tick p)).
Proof.
  intros Hn Hb. constructor; cbn [set_buf p_kind p_all p_scr p_ung]; auto.
  - unfold avail. cbn [set_buf p_buf p_pos p_all]. rewrite skipn_app. replace (n - length (p_buf p)) with 0 by lia. reflexivity.
  - unfold spos. cbn [set_buf p_buf p_pos]. rewrite skipn_length. lia.
  - unfold buf_ok in *. cbn [set_buf p_kind p_buf]. destruct (p_kind p); [rewrite skipn_length; lia|rewrite Hb; now destruct n].
Qed.
Lemma str_moved p n : p_kind p = KStr -> p_buf p = [] -> moved n p (set_buf p (p_pos p + n) [] (p_tick p)).
Proof.
  intros Hk Hb. constructor; cbn [set_buf p_kind p_all p_scr p_ung]; auto.
  - unfold avail. cbn [set_buf p_buf p_pos p_all]. rewrite Hb. cbn [app]. now rewrite skipn_skipn'.
  - unfold spos. cbn [set_buf p_buf p_pos]. rewrite Hb. cbn [length]. lia.
  - unfold buf_ok. cbn [set_buf p_kind p_buf]. now rewrite Hk.
Qed.
Lemma nth_error_skipn {A} : forall n (l : list A), nth_error l n = hd_error (skipn n l).
Proof. induction n as [|n IH]; intros [|x l]; cbn; auto. Qed.

Definition first_fill (p : port) (m : bmode) (size : nat) : res (port * nat) :=
  match p_buf p with [] => bufport_fill p m size 1 false | _ => Ok (p, 1) end.
Lemma first_fill_ok p m size : p_kind p = KFile m size -> kind_ok (p_kind p) -> buf_ok p ->
  exists p' r, first_fill p m size = Ok (p', r) /\ moved 0 p p' /\ ((r = 0 /\ avail p = []) \/ (r <> 0 /\ exists b buf, p_buf p' = b :: buf)).
Proof.
  intros Hk Ho Hb. unfold first_fill. destruct (p_buf p) as [|b buf] eqn:E.
  - destruct (fill_ok p m size 1 false Hk Ho E) as (p' & r & F & M & L & R0); [lia|rewrite Hk in Ho; cbn in Ho; lia|].
    exists p', r. split; auto. split; auto. destruct r; [left; auto|right]. split; [lia|]. destruct (p_buf p') as [|b' buf']; [discriminate L|eauto].
  - exists p, 1. split; auto. split; [apply moved_0; auto|]. right. split; [lia|]. rewrite E. eauto.
Qed.
Lemma getb_source_ok p : kind_ok (p_kind p) -> buf_ok p ->
  match avail p with
  | [] => exists p', getb_source p = Ok (p', C_EOF) /\ moved 0 p p'
  | b :: _ => exists p', getb_source p = Ok (p', b) /\ moved 1 p p'
  end.
Proof.
  intros Ho Hb. unfold getb_source. destruct (p_kind p) as [m size|] eqn:Ek.
  - change (match p_buf p with [] => bufport_fill p m size 1 false | _ :: _ => Ok (p, 1) end) with (first_fill p m size).
    destruct (first_fill_ok p m size Ek) as (p1 & r & -> & M & D); [now rewrite Ek|auto|]. cbn [bind fst snd].
    destruct D as [(-> & A)|(Hr & b & buf & Eb)].
    + rewrite A. cbn [Nat.eqb]. exists p1. split; auto.
    + destruct (Nat.eqb_spec r 0); [lia|]. assert (A : avail p = b :: buf ++ skipn (p_pos p1) (p_all p1)).
      { pose proof (mv_avail _ _ _ M) as A. cbn [skipn] in A. rewrite <- A. unfold avail. now rewrite Eb. }
      rewrite A, Eb. eexists. split; [reflexivity|]. replace buf with (skipn 1 (p_buf p1)) by (now rewrite Eb).
      apply (moved_trans 0 1 _ _ _ M). apply take_moved; [rewrite Eb; cbn; lia|apply M].
  - unfold buf_ok in Hb. rewrite Ek in Hb. unfold avail. rewrite Hb. cbn [app]. rewrite nth_error_skipn. destruct (skipn (p_pos p) (p_all p)) as [|b r] eqn:E; cbn [hd_error].
    + exists p. split; auto. apply moved_0. unfold buf_ok. now rewrite Ek.
    + eexists. split; [reflexivity|]. replace (S (p_pos p)) with (p_pos p + 1) by lia. apply str_moved; auto.
Qed.

(** ** Characters *)
Lemma char_put_shape c : valid_char c -> exists b bs, char_put c = b :: bs /\ Z.to_nat (nfollows b) = length bs /\ length bs <= 5.
Proof.
  intros Hc. rewrite char_put_putc by (destruct Hc; auto). destruct (nfollows_putc c Hc) as (b & bs & E & _ & N & N2). exists b, bs. split; auto. split; [lia|].
  unfold nbytes in N2. repeat match type of N2 with context [if ?x then _ else _] => destruct x end; lia.
Qed.
Lemma char_get_int_put c l : valid_char c -> char_get_int (char_put c ++ l) = Ok c.
Proof. intros H. unfold char_get_int. now rewrite char_get_putc. Qed.
Lemma put_scr_ok p s : length s <= 6 -> put_scr p s = Ok (set_scr p s).
Proof. intros H. unfold put_scr, MAX_BYTES. now apply Nat.leb_le in H as ->. Qed.
(** [q] is [p] with scratch [s] *)
Definition with_scr (q p : port) (s : list Z) : Prop := q = set_scr p s.

Lemma rest_loop_S f p m size rest : rest_loop (S f) p m size rest =
    (do x <- bufport_fill p m size rest false;
    let p1 := fst x in let filled := snd x in
    if filled =? 0 then Err
    else if rest <=? filled then
      do p2 <- put_scr p1 (p_scr p1 ++ firstn rest (p_buf p1));
      Ok (set_buf p2 (p_pos p2) (skipn rest (p_buf p2)) (p_tick p2))
    else
      do p2 <- put_scr p1 (p_scr p1 ++ firstn filled (p_buf p1));
      rest_loop f (set_buf p2 (p_pos p2) [] (p_tick p2)) m size (rest - filled)).
Proof. reflexivity. Qed.
Lemma rest_loop_ok m size : forall fuel p rest, p_kind p = KFile m size -> kind_ok (p_kind p) -> p_buf p = [] -> 1 <= rest -> rest <= 5 -> rest <= fuel ->
  length (p_scr p) + rest <= 6 -> rest <= length (avail p) ->
  exists p', rest_loop fuel p m size rest = Ok p' /\ p_scr p' = p_scr p ++ firstn rest (avail p) /\ moved rest (set_scr p []) (set_scr p' []).
Proof.
  induction fuel as [|f IH]; intros p rest Hk Ho Hb H1 H5 Hf Hs Ha; [lia|]. rewrite rest_loop_S.
  destruct (fill_ok p m size rest false Hk Ho Hb) as (p1 & r & -> & M & L & R0); [auto|rewrite Hk in Ho; cbn in Ho; intros ->; intuition lia|]. cbn [bind fst snd].
  destruct (Nat.eqb_spec r 0) as [Z|Z]. { rewrite (R0 Z) in Ha. cbn in Ha. lia. }
  assert (A1 : avail p = p_buf p1 ++ skipn (p_pos p1) (p_all p1)) by (pose proof (mv_avail _ _ _ M) as A; cbn [skipn] in A; now rewrite <- A).
  destruct (Nat.leb_spec rest r) as [Hr|Hr].
  - rewrite put_scr_ok by (rewrite app_length, firstn_length, (mv_scr _ _ _ M); lia). cbn [bind set_scr p_pos p_buf p_tick].
    eexists. split; [reflexivity|]. cbn [set_buf set_scr p_scr]. split.
    + rewrite (mv_scr _ _ _ M), A1, firstn_app. replace (rest - length (p_buf p1)) with 0 by lia. cbn [firstn]. now rewrite app_nil_r.
    + pose proof (take_moved (set_scr p1 []) rest) as T. cbn [set_scr p_buf p_pos p_tick] in T. pose proof (proj1 (set_scr_moved 0 p p1 [] [] M)) as M0. apply (moved_trans 0 rest _ _ _ M0). apply T; [lia|]. apply M0.
  - rewrite put_scr_ok by (rewrite app_length, firstn_length, (mv_scr _ _ _ M); lia). cbn [bind set_scr p_pos p_buf p_tick].
    set (p2 := set_buf (set_scr p1 _) _ _ _).
    assert (M2 : moved r (set_scr p []) (set_scr p2 [])).
    { pose proof (proj1 (set_scr_moved 0 p p1 [] [] M)) as M0. apply (moved_trans 0 r _ _ _ M0). pose proof (take_moved (set_scr p1 []) r) as T. cbn [set_scr p_buf p_pos p_tick] in T.
      assert (E2 : skipn r (p_buf p1) = []) by (apply skipn_all2; lia). rewrite E2 in T. apply T; [lia|]. apply M0. }
    assert (Av : avail p2 = skipn r (avail p)) by (exact (mv_avail _ _ _ M2)).
    destruct (IH p2 (rest - r)) as (p' & E & Sc & M'); try lia.
    + cbn. rewrite (mv_kind _ _ _ M). auto.
    + cbn. rewrite (mv_kind _ _ _ M). auto.
    + reflexivity.
    + unfold p2. cbn [set_buf set_scr p_scr]. rewrite app_length, firstn_length, (mv_scr _ _ _ M). lia.
    + rewrite Av, skipn_length. lia.
    + exists p'. split; auto. split.
      * rewrite Sc, Av. unfold p2. cbn [set_buf set_scr p_scr]. rewrite (mv_scr _ _ _ M), <- app_assoc. f_equal. rewrite A1.
        rewrite (firstn_all2 (p_buf p1)) by lia. rewrite firstn_app. rewrite (firstn_all2 (p_buf p1)) by lia. f_equal.
        rewrite skipn_app. rewrite (skipn_all2 (p_buf p1)) by lia. cbn [app]. rewrite L. now replace (r - r) with 0 by lia.
      * replace rest with (r + (rest - r)) by lia. eapply moved_trans; eauto.
Qed.
Lemma getc_file_ok p m size c l : p_kind p = KFile m size -> kind_ok (p_kind p) -> buf_ok p -> p_scr p = [] -> valid_char c -> avail p = char_put c ++ l ->
  exists p', getc_file p m size = Ok (p', c) /\ moved (length (char_put c)) p p'.
Proof.
  intros Hk Ho Hb Hs Vc A. destruct (char_put_shape c Vc) as (b & bs & Ec & Nb & L5). unfold getc_file.
  change (match p_buf p with [] => bufport_fill p m size 1 false | _ :: _ => Ok (p, 1) end) with (first_fill p m size).
  destruct (first_fill_ok p m size Hk Ho Hb) as (p1 & r & -> & M & D). cbn [bind fst snd].
  destruct D as [(-> & A0)|(Hr & b' & buf & Eb)]. { rewrite A0, Ec in A. discriminate. }
  destruct (Nat.eqb_spec r 0); [lia|]. rewrite Eb.
  assert (A1 : char_put c ++ l = (b' :: buf) ++ skipn (p_pos p1) (p_all p1)).
  { pose proof (mv_avail _ _ _ M) as X. cbn [skipn] in X. rewrite <- A, <- X. unfold avail. now rewrite Eb. }
  assert (b' = b) as -> by (rewrite Ec in A1; cbn in A1; congruence). rewrite Nb.
  assert (A2 : bs ++ l = buf ++ skipn (p_pos p1) (p_all p1)) by (rewrite Ec in A1; cbn in A1; congruence).
  destruct (Nat.eqb_spec (length bs) 0) as [Z|Z].
  - assert (c = b). { pose proof (char_get_putc c [] Vc) as G. rewrite Ec in G. assert (bs = []) by (now destruct bs). subst bs. cbn [app] in G. unfold char_get in G. destruct (Z.leb_spec 128 b); [|congruence]. exfalso.
      rewrite char_put_putc in Ec by (destruct Vc; auto). pose proof (putc_length c Vc) as Pl. rewrite Ec in Pl. cbn [length] in Pl. unfold nbytes in Pl. unfold utf8_putc in Ec. destruct (Z.ltb_spec c 128) as [Hc|Hc]; [injection Ec as Eb0; unfold u8 in Eb0; rewrite Z.mod_small in Eb0; destruct Vc; lia|repeat match type of Pl with context [if ?x then _ else _] => destruct x end; lia]. }
    subst b. eexists. split; [reflexivity|]. rewrite Ec. cbn [length]. rewrite Z. replace buf with (skipn 1 (p_buf p1)) by (now rewrite Eb).
    apply (moved_trans 0 1 _ _ _ M). apply take_moved; [rewrite Eb; cbn; lia|apply M].
  - destruct (Nat.ltb_spec (length buf) (length bs)) as [Lb|Lb].
    + rewrite put_scr_ok by (cbn [length]; lia). cbn [bind set_scr p_pos p_buf p_tick p_scr]. set (p2 := set_buf (set_scr p1 _) _ _ _).
      assert (M2 : moved (S (length buf)) (set_scr p []) (set_scr p2 [])).
      { pose proof (proj1 (set_scr_moved 0 p p1 [] [] M)) as M0. apply (moved_trans 0 (S (length buf)) _ _ _ M0). pose proof (take_moved (set_scr p1 []) (S (length buf))) as T. cbn [set_scr p_buf p_pos p_tick] in T.
        assert (E2 : skipn (S (length buf)) (p_buf p1) = []) by (apply skipn_all2; rewrite Eb; cbn; lia). rewrite E2 in T. apply T; [rewrite Eb; cbn; lia|]. apply M0. }
      assert (Av : avail p2 = skipn (S (length buf)) (avail p)) by (exact (mv_avail _ _ _ M2)).
      assert (Av2 : avail p2 = skipn (length buf) bs ++ l). { rewrite Av, A, Ec. cbn [app skipn]. rewrite skipn_app. now replace (length buf - length bs) with 0 by lia. }
      cbn [length].
      destruct (rest_loop_ok m size (S (length bs)) p2 (length bs + 1 - S (length buf))) as (p3 & -> & Sc & M3); try lia.
      * cbn. rewrite (mv_kind _ _ _ M). auto.
      * cbn. rewrite (mv_kind _ _ _ M). auto.
      * reflexivity.
      * cbn [p2 set_buf set_scr p_scr length]. lia.
      * rewrite Av2, app_length, skipn_length. lia.
      * cbn [bind].
        assert (Es : p_scr p3 = char_put c).
        { rewrite Sc, Av2, Ec. cbn [p2 set_buf set_scr p_scr app]. f_equal. rewrite firstn_app. rewrite skipn_length. replace (length bs + 1 - S (length buf) - (length bs - length buf)) with 0 by lia. cbn [firstn]. rewrite app_nil_r.
          rewrite firstn_all2 by (rewrite skipn_length; lia). rewrite <- (firstn_skipn (length buf) bs) at 2. f_equal.
          transitivity (firstn (length buf) (bs ++ l)); [rewrite A2, firstn_app, firstn_all, Nat.sub_diag; cbn [firstn]; now rewrite app_nil_r|]. rewrite firstn_app. replace (length buf - length bs) with 0 by lia. cbn [firstn]. now rewrite app_nil_r. }
        assert (Eg : char_get_int (p_scr p3) = Ok c) by (rewrite Es, <- (app_nil_r (char_put c)); now apply char_get_int_put). rewrite Eg. cbn [bind].
        eexists. split; [reflexivity|]. pose proof (moved_trans _ _ _ _ _ M2 M3) as M4. rewrite Ec. cbn [length]. replace (S (length bs)) with (S (length buf) + (length bs + 1 - S (length buf))) by lia.
        destruct M4. constructor; auto.
    + assert (Eg : char_get_int (b :: buf) = Ok c).
      { assert (F : firstn (length bs) buf = bs). { transitivity (firstn (length bs) (buf ++ skipn (p_pos p1) (p_all p1))). { rewrite firstn_app. replace (length bs - length buf) with 0 by lia. cbn [firstn]. now rewrite app_nil_r. } rewrite <- A2, firstn_app, firstn_all, Nat.sub_diag. cbn [firstn]. apply app_nil_r. }
        rewrite <- (firstn_skipn (length bs) buf), F. change (b :: bs ++ skipn (length bs) buf) with ((b :: bs) ++ skipn (length bs) buf). rewrite <- Ec. now apply char_get_int_put. }
      rewrite Eg. cbn [bind]. eexists. split; [reflexivity|]. rewrite Ec. cbn [length]. replace (skipn (length bs) buf) with (skipn (S (length bs)) (p_buf p1)) by (now rewrite Eb).
      apply (moved_trans 0 (S (length bs)) _ _ _ M). apply take_moved; [rewrite Eb; cbn; lia|apply M].
Qed.

Lemma getc_str_ok p c l : p_kind p = KStr -> p_buf p = [] -> valid_char c -> avail p = char_put c ++ l ->
  exists p', getc_str p = Ok (p', c) /\ moved (length (char_put c)) p p'.
Proof.
  intros Hk Hb Vc A. destruct (char_put_shape c Vc) as (b & bs & Ec & Nb & L5). unfold avail in A. rewrite Hb in A. cbn [app] in A. unfold getc_str. rewrite nth_error_skipn, A, Ec. cbn [app hd_error]. rewrite Nb.
  assert (La : length (p_all p) = p_pos p + S (length bs) + length l).
  { assert (p_pos p < length (p_all p)). { destruct (Nat.lt_ge_cases (p_pos p) (length (p_all p))); auto. rewrite skipn_all2, Ec in A by auto. discriminate. }
    assert (X : length (skipn (p_pos p) (p_all p)) = length (char_put c ++ l)) by (now rewrite A). rewrite skipn_length, app_length, Ec in X. cbn [length] in X. lia. }
  destruct (Nat.eqb_spec (length bs) 0) as [Z|Z].
  - assert (bs = []) by (now destruct bs). subst bs. assert (c = b).
    { pose proof (char_get_putc c [] Vc) as G. rewrite Ec in G. cbn [app] in G. unfold char_get in G. destruct (Z.leb_spec 128 b); [|congruence].
      exfalso. rewrite char_put_putc in Ec by (destruct Vc; auto). pose proof (putc_length c Vc) as Pl. rewrite Ec in Pl. cbn [length] in Pl. unfold nbytes in Pl. unfold utf8_putc in Ec. destruct (Z.ltb_spec c 128) as [Hc|Hc]; [injection Ec as Eb0; unfold u8 in Eb0; rewrite Z.mod_small in Eb0; destruct Vc; lia|repeat match type of Pl with context [if ?x then _ else _] => destruct x end; lia]. }
    subst b. eexists. split; [reflexivity|]. cbn [length]. replace (S (p_pos p)) with (p_pos p + 1) by lia. apply str_moved; auto.
  - destruct (Nat.ltb_spec (length (p_all p)) (S (p_pos p) + length bs)); [lia|].
    change (b :: bs ++ l) with ((b :: bs) ++ l). rewrite <- Ec, char_get_int_put by auto. cbn [bind]. eexists. split; [reflexivity|]. rewrite Ec. cbn [length].
    replace (S (p_pos p) + length bs) with (p_pos p + S (length bs)) by lia. apply str_moved; auto.
Qed.

(** ** Blocks *)
Lemma read_loop_S f p m size acc siz : read_loop (S f) p m size acc siz =
    if siz =? 0 then Ok (p, acc)
    else
      if negb (length acc =? 0) && match m with BFull => false | _ => negb (p_ready p (p_tick p)) end then Ok (p, acc)
      else
        do x <- bufport_fill p m size (Nat.min siz size) true;
        let p1 := fst x in let r := snd x in
        if r =? 0 then Ok (p1, acc)
        else if siz <=? r then
          Ok (set_buf p1 (p_pos p1) (skipn siz (p_buf p1)) (p_tick p1), acc ++ firstn siz (p_buf p1))
        else read_loop f (set_buf p1 (p_pos p1) (skipn r (p_buf p1)) (p_tick p1)) m size (acc ++ firstn r (p_buf p1)) (siz - r).
Proof. reflexivity. Qed.
Lemma read_loop_ok m size : forall fuel p acc siz, p_kind p = KFile m size -> kind_ok (p_kind p) -> p_buf p = [] \/ siz = 0 -> buf_ok p -> siz < fuel ->
  exists p' k, read_loop fuel p m size acc siz = Ok (p', acc ++ firstn k (avail p)) /\ moved k p p' /\ k <= siz /\ k <= length (avail p)
    /\ (k = 0 -> siz = 0 \/ avail p = [] \/ acc <> []) /\ (m = BFull -> k = Nat.min siz (length (avail p))).
Proof.
  induction fuel as [|f IH]; intros p acc siz Hk Ho Hb Hbo Hf; [lia|]. rewrite read_loop_S.
  destruct (Nat.eqb_spec siz 0) as [Z|Z].
  { exists p, 0. cbn [firstn]. rewrite app_nil_r. split; auto. split; [now apply moved_0|]. split; [lia|]. split; [lia|]. split; [auto|]. lia. }
  destruct Hb as [Hb|Hb]; [|lia].
  destruct (negb (length acc =? 0) && _) eqn:Est.
  { exists p, 0. cbn [firstn]. rewrite app_nil_r. split; auto. split; [now apply moved_0|]. split; [lia|]. split; [lia|]. apply andb_true_iff in Est as (E1 & E2). split.
    - intros _. right. right. intros ->. discriminate.
    - intros ->. discriminate. }
  clear Est. destruct (fill_ok p m size (Nat.min siz size) true Hk Ho Hb) as (p1 & r & -> & M & L & R0); [rewrite Hk in Ho; cbn in Ho; lia|lia|]. cbn [bind fst snd].
  assert (A1 : avail p = p_buf p1 ++ skipn (p_pos p1) (p_all p1)) by (pose proof (mv_avail _ _ _ M) as A; cbn [skipn] in A; now rewrite <- A).
  destruct (Nat.eqb_spec r 0) as [Zr|Zr].
  { specialize (R0 Zr). exists p1, 0. rewrite R0. cbn [firstn length]. rewrite app_nil_r. split; auto. split; auto. split; [lia|]. split; [lia|]. split; [auto|]. lia. }
  destruct (Nat.leb_spec siz r) as [Hr|Hr].
  - eexists _, siz. split. { f_equal. f_equal. rewrite A1, firstn_app. replace (siz - length (p_buf p1)) with 0 by lia. cbn [firstn]. now rewrite app_nil_r. }
    split; [apply (moved_trans 0 siz _ _ _ M); apply take_moved; [lia|apply M]|]. split; [lia|]. rewrite A1, app_length. split; [lia|]. split; [lia|]. lia.
  - set (p2 := set_buf p1 _ _ _).
    assert (M2 : moved r p p2) by (apply (moved_trans 0 r _ _ _ M); apply take_moved; [lia|apply M]).
    destruct (IH p2 (acc ++ firstn r (p_buf p1)) (siz - r)) as (p' & k & E & M' & K1 & K2 & K0 & Kf); try lia.
    + now rewrite (mv_kind _ _ _ M2).
    + now rewrite (mv_kind _ _ _ M2).
    + left. unfold p2. cbn [set_buf p_buf]. apply skipn_all2. lia.
    + apply M2.
    + exists p', (r + k). rewrite E. rewrite (mv_avail _ _ _ M2) in *. rewrite skipn_length in *.
      split. { f_equal. f_equal. rewrite <- app_assoc. f_equal. rewrite A1. rewrite (firstn_all2 (p_buf p1)) by lia. rewrite firstn_app. rewrite (firstn_all2 (p_buf p1)) by lia. f_equal. rewrite skipn_app, (skipn_all2 (p_buf p1)) by lia. cbn [app]. rewrite L, Nat.sub_diag. cbn [skipn]. f_equal. lia. }
      split; [eapply moved_trans; eauto|]. assert (r <= length (avail p)) by (rewrite A1, app_length; lia). split; [lia|]. split; [lia|]. split; [lia|]. intros Hm. specialize (Kf Hm). lia.
Qed.
Definition exact_kind (k : pkind) : bool := match k with KFile BFull _ => true | KFile _ _ => false | KStr => true end.
Lemma getz_source_ok p n : kind_ok (p_kind p) -> buf_ok p -> 1 <= n ->
  exists p' k, moved k p p' /\ k <= n /\ k <= length (avail p) /\ (exact_kind (p_kind p) = true -> k = Nat.min n (length (avail p)))
    /\ ((avail p = [] /\ k = 0 /\ getz_source p n = Ok (p', [], C_EOF)) \/ (1 <= k /\ getz_source p n = Ok (p', firstn k (avail p), Z.of_nat k))).
Proof.
  intros Ho Hb Hn. unfold getz_source. destruct (p_kind p) as [m size|] eqn:Ek.
  - unfold bufport_read. set (req := Nat.min n (length (p_buf p))). set (p1 := set_buf p _ _ _).
    assert (M1 : moved req p p1) by (apply take_moved; [lia|auto]).
    destruct (read_loop_ok m size (S n) p1 (firstn req (p_buf p)) (n - req)) as (p' & k & E & M' & K1 & K2 & K0 & Kf); try lia.
    + now rewrite (mv_kind _ _ _ M1).
    + now rewrite (mv_kind _ _ _ M1), Ek.
    + unfold p1. cbn [set_buf p_buf]. destruct (Nat.le_gt_cases n (length (p_buf p))); [right; lia|left; apply skipn_all2; lia].
    + apply M1.
    + rewrite E. cbn [bind fst snd]. rewrite (mv_avail _ _ _ M1) in *. rewrite skipn_length in K2, Kf.
      assert (Lr : req <= length (avail p)) by (unfold avail; rewrite app_length; lia).
      assert (Ef : firstn req (p_buf p) ++ firstn k (skipn req (avail p)) = firstn (req + k) (avail p)).
      { transitivity (firstn req (avail p) ++ firstn k (skipn req (avail p))).
        - f_equal. unfold avail. rewrite firstn_app. replace (req - length (p_buf p)) with 0 by lia. cbn [firstn]. now rewrite app_nil_r.
        - rewrite <- (firstn_skipn req (firstn (req + k) (avail p))). f_equal; [rewrite firstn_firstn; f_equal; lia|]. rewrite skipn_firstn_comm. f_equal. lia. }
      rewrite Ef. assert (Lf : length (firstn (req + k) (avail p)) = req + k) by (rewrite firstn_length; lia). rewrite Lf.
      exists p', (req + k). split; [eapply moved_trans; eauto|]. split; [lia|]. split; [lia|]. split.
      { intros X. cbn in X. destruct m; try discriminate. specialize (Kf eq_refl). lia. }
      destruct (Nat.eqb_spec (req + k) 0) as [Z|Z].
      * left. destruct (Nat.eqb_spec n 0); [lia|]. cbn [andb negb]. rewrite Z. cbn [firstn]. assert (req = 0) by lia. assert (k = 0) by lia.
        destruct K0 as [K0|[K0|K0]]; auto; [lia| |]. { rewrite H in K0. cbn [skipn] in K0. auto. } { exfalso. apply K0. now rewrite H. }
      * right. cbn [andb]. split; auto. lia.
  - unfold buf_ok in Hb. rewrite Ek in Hb. assert (Av : avail p = skipn (p_pos p) (p_all p)) by (unfold avail; now rewrite Hb).
    assert (Al : length (avail p) = length (p_all p) - p_pos p) by (now rewrite Av, skipn_length). rewrite <- Al.
    destruct (Nat.leb_spec (length (avail p)) n) as [H|H].
    + destruct (Nat.eqb_spec (length (avail p)) 0) as [Z|Z].
      * exists p, 0. split; [apply moved_0; unfold buf_ok; now rewrite Ek|]. split; [lia|]. split; [lia|]. split; [lia|]. left. split; [now apply length_zero_iff_nil|]. auto.
      * exists (set_buf p (length (p_all p)) [] (p_tick p)), (length (avail p)). split.
        { replace (length (p_all p)) with (p_pos p + length (avail p)) by lia. apply str_moved; auto. }
        split; [lia|]. split; [lia|]. split; [lia|]. right. split; [lia|]. now rewrite firstn_all, <- Av.
    + exists (set_buf p (p_pos p + n) [] (p_tick p)), n. split; [apply str_moved; auto|]. split; [lia|]. split; [lia|]. split; [lia|]. right. split; auto. now rewrite Av.
Qed.
