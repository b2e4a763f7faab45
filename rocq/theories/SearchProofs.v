From Coq Require Import ZArith List Bool Arith Lia.
From Verif Require Import Outcome Utf8Model StringModel SearchModel SearchSpec.
Import ListNotations.
Local Open Scope nat_scope.
Ltac Zify.zify_post_hook ::= idtac.

Lemma skipn_skipn' : forall {A} n m (l : list A), skipn n (skipn m l) = skipn (m + n) l.
Proof. intros A n m. revert n. induction m; intros n l; [reflexivity|]. destruct l; [now rewrite !skipn_nil|]. cbn [skipn Nat.add]. apply IHm. Qed.
(** positions, by element *)
Lemma occurs_nth : forall (s p : list Z) i, occurs_at s p i <-> i + length p <= length s /\ forall j, j < length p -> nth_error s (i + j) = nth_error p j.
Proof.
  intros s p i. split.
  - intros (a & b & -> & <-). rewrite !app_length. split; [lia|]. intros j Hj. rewrite nth_error_app2 by lia. rewrite nth_error_app1 by lia. f_equal. lia.
  - intros (L & H). exists (firstn i s), (skipn (i + length p) s). split; [|rewrite firstn_length; lia].
    rewrite <- (firstn_skipn i s) at 1. f_equal. rewrite <- (firstn_skipn (length p) (skipn i s)) at 1. f_equal; [|now rewrite skipn_skipn'].
    assert (E : forall q t : list Z, length q <= length t -> (forall j, j < length q -> nth_error t j = nth_error q j) -> firstn (length q) t = q).
    { clear. induction q as [|x q IH]; intros t L H; [reflexivity|]. destruct t as [|y t]; [cbn in L; lia|]. cbn [length firstn]. pose proof (H 0 ltac:(cbn; lia)) as H0. cbn in H0. injection H0 as ->. f_equal. apply IH; [cbn in L; lia|]. intros j Hj. apply (H (S j)). cbn. lia. }
    apply E. { rewrite skipn_length. lia. } intros j Hj. rewrite <- H by auto. clear. revert s. induction i as [|i IH]; intros s; [reflexivity|]. destruct s as [|x s]; [destruct j; reflexivity|]. cbn [skipn Nat.add nth_error]. apply IH.
Qed.
Lemma nth_firstn_lt : forall (l : list Z) n i, i < n -> nth_error (firstn n l) i = nth_error l i.
Proof. induction l as [|x l IH]; intros n i H; destruct n; try lia; cbn [firstn]; auto. destruct i; auto. cbn. apply IH. lia. Qed.
Lemma occurs_text : forall (mem : list Z) siz1 (p : list Z) i, siz1 <= length mem -> (occurs_at (firstn siz1 mem) p i <-> i + length p <= siz1 /\ forall j, j < length p -> nth_error mem (i + j) = nth_error p j).
Proof.
  intros mem siz1 p i L. rewrite occurs_nth, firstn_length, Nat.min_l by lia. split; intros (A & B); split; auto; intros j Hj; [rewrite <- B by auto; symmetry|rewrite <- B by auto]; apply nth_firstn_lt; lia.
Qed.
Lemma rdb_some : forall mem i, i < length mem -> exists c, rdb mem i = Ok c /\ nth_error mem i = Some c.
Proof. intros mem i H. unfold rdb. destruct (nth_error mem i) as [z|] eqn:E; [exists z; split; reflexivity|]. apply nth_error_None in E. lia. Qed.

Lemma cmp_back_ok : forall n mem pat k, n <= length pat -> n <= S k -> k < length mem -> exists b, cmp_back n mem pat k = Ok b /\ (b = true <-> forall j, j < n -> nth_error mem (k + 1 + j - n) = nth_error pat j).
Proof.
  induction n; intros mem pat k Lp Lk Lm; cbn [cmp_back].
  - exists true. split; auto. split; auto. intros _ j Hj. lia.
  - destruct (rdb_some mem k Lm) as (a & -> & Ea). destruct (rdb_some pat n ltac:(lia)) as (b & -> & Eb). cbn [bind].
    destruct (Z.eqb_spec a b) as [->|N].
    + destruct n as [|n].
      * exists true. split; auto. split; auto. intros _ j Hj. assert (j = 0) by lia. subst. replace (k + 1 + 0 - 1) with k by lia. congruence.
      * destruct (IHn mem pat (k - 1)) as (r & -> & Hr); try lia. exists r. split; auto. rewrite Hr. split; intros H j Hj.
        -- destruct (Nat.eq_dec j (S n)) as [->|Nj]; [replace (k + 1 + S n - S (S n)) with k by lia; congruence|]. rewrite <- H by lia. f_equal. lia.
        -- rewrite <- H by lia. f_equal. lia.
    + exists false. split; auto. split; [discriminate|]. intros H. specialize (H n ltac:(lia)). replace (k + 1 + n - S n) with k in H by lia. congruence.
Qed.
Lemma bm_table_ok : forall pat siz2, siz2 = length pat -> 2 <= siz2 < 256 -> forall l j sh, l = firstn (siz2 - 1 - j) (skipn j pat) -> j <= siz2 - 1 ->
  (forall c, 1 <= sh c <= siz2 /\ forall e, 0 < e < sh c -> siz2 - 1 - e < j -> nth_error pat (siz2 - 1 - e) <> Some c) ->
  forall c, 1 <= bm_table siz2 j l sh c <= siz2 /\ forall e, 0 < e < bm_table siz2 j l sh c -> nth_error pat (siz2 - 1 - e) <> Some c.
Proof.
  intros pat siz2 E2 R. induction l as [|x l IH]; intros j sh El Hj H; cbn [bm_table].
  - assert (j = siz2 - 1). { apply (f_equal (@length Z)) in El. rewrite firstn_length, skipn_length in El. cbn in El. lia. }
    intros c. destruct (H c) as (A & B). split; auto. intros e He. apply B; auto. lia.
  - assert (Lj : j < siz2 - 1). { apply (f_equal (@length Z)) in El. rewrite firstn_length, skipn_length in El. cbn [length] in El. lia. }
    assert (Ex : nth_error pat j = Some x /\ l = firstn (siz2 - 1 - S j) (skipn (S j) pat)).
    { destruct (skipn j pat) as [|y t] eqn:Es. { rewrite firstn_nil in El. discriminate. } replace (siz2 - 1 - j) with (S (siz2 - 1 - S j)) in El by lia. cbn [firstn] in El. injection El as -> ->.
      assert (K : forall n (q : list Z) y t, skipn n q = y :: t -> nth_error q n = Some y /\ skipn (S n) q = t). { clear. induction n; intros q y t H; [cbn in H; subst; split; reflexivity|]. destruct q as [|z q]; [discriminate|]. cbn [skipn nth_error] in *. destruct (IHn q y t H). split; auto. }
      destruct (K _ _ _ _ Es) as (K1 & K2). split; auto. now rewrite K2. }
    destruct Ex as (Ex & El2). apply IH; auto. intros c. unfold set_shift. rewrite Nat.mod_small by lia. destruct (Z.eqb_spec c x) as [->|N].
    + split; [lia|]. intros e He Hlt. lia.
    + destruct (H c) as (A & B). split; auto. intros e He Hlt. destruct (Nat.eq_dec (siz2 - 1 - e) j) as [Ej|Nj]; [rewrite Ej, Ex; congruence|]. apply B; auto. lia.
Qed.
Lemma bm_loop_ok : forall mem siz1 pat sh, siz1 <= length mem -> 1 <= length pat ->
  (forall c, 1 <= sh c <= length pat /\ forall e, 0 < e < sh c -> nth_error pat (length pat - 1 - e) <> Some c) ->
  forall f i, 1 <= f -> siz1 < f + i -> length pat <= i + 1 -> (forall j, occurs_at (firstn siz1 mem) pat j -> i + 1 - length pat <= j) ->
  exists o, bm_loop f sh mem siz1 pat i = Ok o /\ match o with Some k => leftmost (firstn siz1 mem) pat k | None => absent (firstn siz1 mem) pat end.
Proof.
  intros mem siz1 pat sh L P T. induction f; intros i H1 Hf Hi Inv; cbn [bm_loop].
  - lia.
  - destruct (Nat.ltb_spec i siz1) as [Li|Li].
    + destruct (cmp_back_ok (length pat) mem pat i) as (b & -> & Hb); try lia. cbn [bind]. destruct b.
      * eexists. split; [reflexivity|]. split; auto. apply occurs_text; auto. split; [lia|]. intros j Hj. rewrite <- (proj1 Hb eq_refl j Hj). f_equal. lia.
      * destruct (rdb_some mem i ltac:(lia)) as (c & -> & Ec). cbn [bind]. destruct (T c) as (A & B). apply IHf; try lia.
        intros j Hj. pose proof (Inv j Hj) as Ij. destruct (Nat.ltb_spec j (i + sh c + 1 - length pat)); [|lia]. exfalso. apply occurs_text in Hj; auto. destruct Hj as (Lj & Hj).
        destruct (Nat.eq_dec j (i + 1 - length pat)) as [Ej|Nj].
        -- assert (false = true); [|discriminate]. apply Hb. intros m Hm. rewrite <- Hj by auto. f_equal. lia.
        -- apply (B (j - (i + 1 - length pat)) ltac:(lia)). rewrite <- Hj by lia. rewrite <- Ec. f_equal. lia.
    + exists None. split; auto. intros j Hj. pose proof (Inv j Hj). apply occurs_text in Hj; auto. lia.
Qed.
Lemma boyer_moore_ok : forall mem siz1 pat, siz1 <= length mem -> 2 <= length pat < 256 ->
  exists o, boyer_moore mem siz1 pat = Ok o /\ match o with Some k => leftmost (firstn siz1 mem) pat k | None => absent (firstn siz1 mem) pat end.
Proof.
  intros mem siz1 pat L P. unfold boyer_moore. apply bm_loop_ok; auto; try lia.
  apply bm_table_ok; auto; try lia. { cbn [skipn]. f_equal. lia. }
  intros c. rewrite Nat.mod_small by lia. split; [lia|]. intros. lia.
Qed.

(** reverse *)
Lemma cmp_fwd_ok : forall pat mem k, k + length pat <= length mem -> exists b, cmp_fwd pat mem k = Ok b /\ (b = true <-> forall j, j < length pat -> nth_error mem (k + j) = nth_error pat j).
Proof.
  induction pat as [|x pat IH]; intros mem k L; cbn [cmp_fwd length] in *.
  - exists true. split; auto. split; auto. intros _ j Hj. lia.
  - destruct (rdb_some mem k ltac:(lia)) as (a & -> & Ea). cbn [bind]. destruct (Z.eqb_spec a x) as [->|N].
    + destruct (IH mem (S k)) as (b & -> & Hb); [lia|]. exists b. split; auto. rewrite Hb. split; intros H j Hj.
      * destruct j; [now rewrite Nat.add_0_r|]. cbn [nth_error]. rewrite <- H by lia. f_equal. lia.
      * specialize (H (S j) ltac:(lia)). cbn [nth_error] in H. rewrite <- H. f_equal. lia.
    + exists false. split; auto. split; [discriminate|]. intros H. specialize (H 0 ltac:(lia)). rewrite Nat.add_0_r in H. cbn in H. congruence.
Qed.
Lemma bmr_table_ok : forall pat siz2, siz2 = length pat -> 2 <= siz2 < 256 -> forall j rl sh, rl = rev (firstn (S j) pat) -> j <= siz2 - 1 ->
  (forall c, 1 <= sh c <= siz2 /\ forall e, 0 < e < sh c -> j < e -> nth_error pat e <> Some c) ->
  forall c, 1 <= bmr_table j rl sh c <= siz2 /\ forall e, 0 < e < bmr_table j rl sh c -> nth_error pat e <> Some c.
Proof.
  intros pat siz2 E2 R. induction j; intros rl sh El Hj H; cbn [bmr_table].
  - intros c. destruct (H c) as (A & B). split; auto. intros e He. apply B; lia.
  - assert (Es : exists x, nth_error pat (S j) = Some x /\ firstn (S (S j)) pat = firstn (S j) pat ++ [x]).
    { clear - E2 Hj R. assert (L : S j < length pat) by lia. clear - L. revert L. generalize (S j) as n. clear. intros n. revert pat. induction n; intros pat L; destruct pat as [|y t]; cbn in L; try lia. - exists y. split; reflexivity. - destruct (IHn t ltac:(lia)) as (x & A & B). exists x. split; auto. cbn [firstn] in *. rewrite B. reflexivity. }
    destruct Es as (x & Ex & Ef). rewrite Ef, rev_app_distr in El. cbn [rev app] in El. subst rl. apply IHj; [reflexivity|lia|]. intros c. unfold set_shift. rewrite Nat.mod_small by lia. destruct (Z.eqb_spec c x) as [->|N].
    + split; [lia|]. intros e He Hlt. lia.
    + destruct (H c) as (A & B). split; auto. intros e He Hlt. destruct (Nat.eq_dec e (S j)) as [->|Ne]; [rewrite Ex; congruence|]. apply B; auto. lia.
Qed.
(** the loop, when position i and everything it reads is within the memory; a match one
    byte past the text is possible only at the first position *)
Lemma bmr_loop_ok : forall mem siz1 pat sh, siz1 < length mem -> 1 <= length pat <= siz1 ->
  (forall c, 1 <= sh c <= length pat /\ forall e, 0 < e < sh c -> nth_error pat e <> Some c) ->
  forall f i, i + 1 < f + 1 -> i + length pat <= siz1 + 1 -> (forall j, occurs_at (firstn siz1 mem) pat j -> j <= i) ->
  exists o, bmr_loop f sh mem pat i = Ok o /\
    match o with Some k => rightmost (firstn siz1 mem) pat k \/ (k = siz1 + 1 - length pat /\ forall j, j < length pat -> nth_error mem (k + j) = nth_error pat j) | None => absent (firstn siz1 mem) pat end.
Proof.
  intros mem siz1 pat sh L P T. induction f; intros i Hf Hi Inv; cbn [bmr_loop]; [lia|].
  destruct (cmp_fwd_ok pat mem i) as (b & -> & Hb); [lia|]. cbn [bind]. destruct b.
  - exists (Some i). split; auto. destruct (Nat.eq_dec (i + length pat) (siz1 + 1)) as [E|N].
    + right. split; [lia|]. now apply Hb.
    + left. split; auto. apply occurs_text; [lia|]. split; [lia|]. now apply Hb.
  - destruct (rdb_some mem i ltac:(lia)) as (c & -> & Ec). cbn [bind]. destruct (T c) as (A & B).
    assert (K : forall j, occurs_at (firstn siz1 mem) pat j -> j + sh c <= i).
    { intros j Hj. pose proof (Inv j Hj) as Ij. destruct (Nat.leb_spec (j + sh c) i); auto. exfalso. apply occurs_text in Hj; [|lia]. destruct Hj as (Lj & Hj). destruct (Nat.eq_dec j i) as [->|Nj].
      - assert (false = true); [|discriminate]. now apply Hb.
      - apply (B (i - j) ltac:(lia)). rewrite <- Hj by lia. rewrite <- Ec. f_equal. lia. }
    destruct (Nat.ltb_spec i (sh c)) as [Hl|Hl].
    + exists None. split; auto. intros j Hj. specialize (K j Hj). lia.
    + apply IHf; try lia. intros j Hj. specialize (K j Hj). lia.
Qed.
Lemma boyer_moore_reverse_ok : forall mem siz1 pat, siz1 < length mem -> 2 <= length pat < 256 -> length pat <= siz1 ->
  exists o, boyer_moore_reverse mem siz1 pat = Ok o /\
    match o with Some k => rightmost (firstn siz1 mem) pat k \/ (k = siz1 + 1 - length pat /\ forall j, j < length pat -> nth_error mem (k + j) = nth_error pat j) | None => absent (firstn siz1 mem) pat end.
Proof.
  intros mem siz1 pat L P P2. unfold boyer_moore_reverse. apply bmr_loop_ok; auto; try lia.
  - apply bmr_table_ok; auto; try lia. { f_equal. rewrite firstn_all2; auto. lia. }
    intros c. rewrite Nat.mod_small by lia. split; [lia|]. intros e He He2. lia.
  - intros j Hj. apply occurs_text in Hj; lia.
Qed.

(** brute force, memchr *)
Lemma bytes_eqb_ok : forall a b, bytes_eqb a b = true <-> a = b.
Proof. induction a as [|x a IH]; intros [|y b]; cbn [bytes_eqb]; split; intros H; try discriminate; auto. - apply andb_true_iff in H. destruct H as (H & H2). apply Z.eqb_eq in H. apply IH in H2. congruence. - injection H as <- <-. rewrite Z.eqb_refl. now apply IH. Qed.
Lemma memcmp0_ok : forall mem siz1 pat i, siz1 <= length mem -> i + length pat <= siz1 -> exists b, memcmp0 mem i pat = Ok b /\ (b = true <-> occurs_at (firstn siz1 mem) pat i).
Proof.
  intros mem siz1 pat i L H. unfold memcmp0. destruct (Nat.ltb_spec (length mem) (i + length pat)); [lia|]. eexists. split; [reflexivity|]. rewrite bytes_eqb_ok. rewrite occurs_text by auto. split.
  - intros E. split; auto. intros j Hj. rewrite E. rewrite nth_firstn_lt by auto. clear. revert mem. induction i; intros mem; [reflexivity|]. destruct mem; [cbn; now destruct j|]. cbn. apply IHi.
  - intros (_ & E). assert (O : occurs_at mem pat i) by (apply occurs_nth; split; auto; lia). destruct O as (a & b & -> & <-). rewrite skipn_app, skipn_all, Nat.sub_diag. cbn [skipn app]. rewrite firstn_app, firstn_all, Nat.sub_diag. cbn [firstn]. now rewrite app_nil_r.
Qed.
Definition finds (best : list Z -> list Z -> nat -> Prop) (r : res found) (s p : list Z) : Prop :=
  exists o, r = Ok o /\ match o with Some (k, None) => best s p k | Some (_, Some _) => False | None => absent s p end.
Lemma brute_ok : forall n mem siz1 pat i, siz1 <= length mem -> 1 <= length pat -> length pat <= siz1 -> i + n = siz1 + 1 - length pat -> (forall j, occurs_at (firstn siz1 mem) pat j -> i <= j) ->
  finds leftmost (byte_found (brute n mem pat i)) (firstn siz1 mem) pat.
Proof.
  induction n; intros mem siz1 pat i L P P2 E Inv; cbn [brute].
  - exists None. split; auto. intros j Hj. pose proof (Inv j Hj). apply occurs_text in Hj; lia.
  - destruct (memcmp0_ok mem siz1 pat i) as (b & -> & Hb); try lia. cbn [bind]. destruct b.
    + exists (Some (i, None)). split; auto. split; auto. now apply Hb.
    + apply IHn; auto; try lia. intros j Hj. pose proof (Inv j Hj). destruct (Nat.eq_dec i j) as [->|]; [apply Hb in Hj; discriminate|lia].
Qed.
Lemma brute_rev_ok : forall n mem siz1 pat, siz1 <= length mem -> 1 <= length pat -> n + length pat <= siz1 + 1 -> (forall j, occurs_at (firstn siz1 mem) pat j -> j < n) ->
  finds rightmost (byte_found (brute_rev n mem pat)) (firstn siz1 mem) pat.
Proof.
  induction n; intros mem siz1 pat L P P2 Inv; cbn [brute_rev].
  - exists None. split; auto. intros j Hj. pose proof (Inv j Hj). lia.
  - destruct (memcmp0_ok mem siz1 pat n) as (b & -> & Hb); try lia. cbn [bind]. destruct b.
    + exists (Some (n, None)). split; auto. split. { now apply Hb. } intros j Hj. specialize (Inv j Hj). lia.
    + apply IHn; auto; try lia. intros j Hj. pose proof (Inv j Hj). destruct (Nat.eq_dec n j) as [->|]; [apply Hb in Hj; discriminate|lia].
Qed.
Lemma occurs_one : forall (mem : list Z) siz1 c i, siz1 <= length mem -> (occurs_at (firstn siz1 mem) [c] i <-> i < siz1 /\ nth_error mem i = Some c).
Proof.
  intros. rewrite occurs_text by auto. cbn [length]. split; intros (A & B).
  - split; [lia|]. specialize (B 0 ltac:(lia)). now rewrite Nat.add_0_r in B.
  - split; [lia|]. intros j Hj. assert (j = 0) by lia. subst. rewrite Nat.add_0_r. exact B.
Qed.
Lemma memchr_ok : forall n mem siz1 c i, siz1 <= length mem -> i + n = siz1 -> (forall j, occurs_at (firstn siz1 mem) [c] j -> i <= j) -> finds leftmost (byte_found (memchr n mem c i)) (firstn siz1 mem) [c].
Proof.
  induction n; intros mem siz1 c i L E Inv; cbn [memchr].
  - exists None. split; auto. intros j Hj. pose proof (Inv j Hj). apply occurs_one in Hj; lia.
  - destruct (rdb_some mem i ltac:(lia)) as (a & -> & Ea). cbn [bind]. destruct (Z.eqb_spec a c) as [->|N].
    + exists (Some (i, None)). split; auto. split; auto. apply occurs_one; auto. split; auto. lia.
    + apply IHn; auto; try lia. intros j Hj. pose proof (Inv j Hj). destruct (Nat.eq_dec i j) as [->|]; [|lia]. apply occurs_one in Hj; auto. destruct Hj. congruence.
Qed.
Lemma memrchr_ok : forall n mem siz1 c, siz1 <= length mem -> n <= siz1 -> (forall j, occurs_at (firstn siz1 mem) [c] j -> j < n) -> finds rightmost (byte_found (memrchr n mem c)) (firstn siz1 mem) [c].
Proof.
  induction n; intros mem siz1 c L E Inv; cbn [memrchr].
  - exists None. split; auto. intros j Hj. pose proof (Inv j Hj). lia.
  - destruct (rdb_some mem n ltac:(lia)) as (a & -> & Ea). cbn [bind]. destruct (Z.eqb_spec a c) as [->|N].
    + exists (Some (n, None)). split; auto. split. { apply occurs_one; auto. } intros j Hj. specialize (Inv j Hj). lia.
    + apply IHn; auto; try lia. intros j Hj. pose proof (Inv j Hj). destruct (Nat.eq_dec n j) as [->|]; [|lia]. apply occurs_one in Hj; auto. destruct Hj. congruence.
Qed.
Lemma absent_short : forall (mem : list Z) siz1 (pat : list Z), siz1 <= length mem -> siz1 < length pat -> absent (firstn siz1 mem) pat.
Proof. intros mem siz1 pat L H j Hj. apply occurs_text in Hj; lia. Qed.
Lemma string_search_ok : forall mem siz1 len1 pat, siz1 <= length mem -> pat <> [] -> finds leftmost (string_search mem siz1 len1 pat) (firstn siz1 mem) pat.
Proof.
  intros mem siz1 len1 pat L N. unfold string_search. destruct pat as [|c [|c2 pat]]; [contradiction| |].
  - apply memchr_ok; auto. intros; lia.
  - set (p := c :: c2 :: pat) in *. assert (2 <= length p) by (cbn; lia). destruct (Nat.ltb_spec siz1 (length p)).
    { exists None. split; auto. now apply absent_short. }
    destruct ((siz1 <? 256) || (256 <=? length p)) eqn:B.
    + apply brute_ok; auto; try lia.
    + apply orb_false_iff in B. destruct B as (B1 & B2). apply Nat.ltb_ge in B1. apply Nat.leb_gt in B2. destruct (boyer_moore_ok mem siz1 p) as (o & -> & Ho); auto. exists (match o with Some i => Some (i, None) | None => None end). destruct o; split; auto.
Qed.
(** reverse: with the false match past the end *)
Lemma string_search_reverse_ok : forall mem siz1 len1 pat, siz1 <= length mem -> pat <> [] -> (siz1 < 256 \/ length pat = 1 \/ 256 <= length pat \/ (siz1 < length mem /\ nth_error mem siz1 <> nth_error pat (length pat - 1))) ->
  finds rightmost (string_search_reverse mem siz1 len1 pat) (firstn siz1 mem) pat.
Proof.
  intros mem siz1 len1 pat L N Sf. unfold string_search_reverse. destruct pat as [|c [|c2 pat]]; [contradiction| |].
  - apply memrchr_ok; auto. intros j Hj. apply occurs_one in Hj; lia.
  - set (p := c :: c2 :: pat) in *. assert (2 <= length p) by (cbn; lia). destruct (Nat.ltb_spec siz1 (length p)).
    { exists None. split; auto. now apply absent_short. }
    destruct ((siz1 <? 256) || (256 <=? length p)) eqn:B.
    + apply brute_rev_ok; auto; try lia. intros j Hj. apply occurs_text in Hj; lia.
    + apply orb_false_iff in B. destruct B as (B1 & B2). apply Nat.ltb_ge in B1. apply Nat.leb_gt in B2. destruct Sf as [Sf|[Sf|[Sf|(Sf & Sf2)]]]; try lia.
      destruct (boyer_moore_reverse_ok mem siz1 p) as (o & -> & Ho); auto. exists (match o with Some i => Some (i, None) | None => None end). destruct o as [k|]; split; auto. destruct Ho as [Ho|(Ek & Ho)]; auto. exfalso. apply Sf2. rewrite <- Ho by lia. f_equal. lia.
Qed.
