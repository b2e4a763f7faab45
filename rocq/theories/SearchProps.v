(** C17: substring search and splitting. *)
From Coq Require Import ZArith List Bool Arith Lia.
From Verif Require Import Outcome Utf8Model Utf8Spec StringModel StringSpec Utf8Proofs StringProofs SearchModel SearchSpec SearchProofs SearchProofs2.
Import ListNotations.
Local Open Scope nat_scope.

(** at byte level: the search finds the leftmost occurrence of the pattern in the first
    siz1 bytes of the block, or reports none exactly when there is none; every read stays
    within the block *)
Theorem string_search_leftmost : forall mem siz1 len1 pat, siz1 <= length mem -> pat <> [] ->
  (exists i, string_search mem siz1 len1 pat = Ok (Some (i, None)) /\ leftmost (firstn siz1 mem) pat i)
  \/ (string_search mem siz1 len1 pat = Ok None /\ absent (firstn siz1 mem) pat).
Proof. intros mem siz1 len1 pat L N. destruct (string_search_ok mem siz1 len1 pat L N) as (o & -> & H). destruct o as [[i [c|]]|]; [contradiction|left; eauto|right; auto]. Qed.
(** string-scan on complete strings: with any return mode, the values describe the
    leftmost occurrence, or are #f exactly when there is none *)
Theorem string_scan_leftmost : forall b1 cs1 b2 cs2 mode, holds b1 cs1 -> holds b2 cs2 ->
  exists vals, string_scan b1 b2 mode string_search = Ok vals /\
    ((exists i, leftmost cs1 cs2 i /\ scan_result mode cs1 cs2 i vals) \/ (absent cs1 cs2 /\ scan_failure mode vals)).
Proof. exact string_scan_ok. Qed.
(** string-scan-right, the same for the rightmost occurrence.  MISSING: long texts (256
    bytes or more) with a pattern of 2 to 255 bytes whose last byte equals the byte past
    the end of the text - see the refuted theorem. *)
Theorem string_scan_right_partial : forall b1 cs1 b2 cs2 mode, holds b1 cs1 -> holds b2 cs2 ->
  (b_size b1 < 256 \/ b_size b2 <= 1 \/ 256 <= b_size b2 \/ (b_size b1 < length (b_buf b1) /\ nth_error (b_buf b1) (b_size b1) <> nth_error (b_buf b2) (b_size b2 - 1))) ->
  exists vals, string_scan b1 b2 mode string_search_reverse = Ok vals /\
    ((exists i, rightmost cs1 cs2 i /\ scan_result mode cs1 cs2 i vals) \/ (absent cs1 cs2 /\ scan_failure mode vals)).
Proof. exact string_scan_right_ok. Qed.
(** string-scan-right in a NUL-terminated text of 300 a's for "a" followed by NUL reports
    index 299 although the text has no NUL; with a buffer that ends with the text it reads
    past the buffer; asking for the rest after the match makes a negative size *)
Definition bytes_body (l extra : list Z) : body := mkbody (length l) (length l) (l ++ extra) false None.
Theorem string_scan_right_refuted : exists text pat, absent text pat /\ holds (bytes_body text [0%Z]) text /\ holds (bytes_body pat []) pat
  /\ string_scan (bytes_body text [0%Z]) (bytes_body pat []) SIndex string_search_reverse = Ok [VInt 299]
  /\ string_scan (bytes_body text [0%Z]) (bytes_body pat []) SAfter string_search_reverse = UB
  /\ string_scan (bytes_body text []) (bytes_body pat []) SIndex string_search_reverse = UB.
Proof.
  exists (repeat 97%Z 300), [97%Z; 0%Z].
  assert (Ascii : forall l extra, Forall (fun c => (0 <= c < 128)%Z) l -> length l < 1000 -> Forall is_byte extra -> holds (bytes_body l extra) l).
  { intros l extra F Hl Fe. exists l, extra. cbn [bytes_body b_buf b_size b_len b_incomplete b_index]. split.
    - clear Hl Fe. induction F as [|c l Hc F IH]; [constructor|]. change (c :: l) with ([c] ++ l) at 2. constructor; auto.
      + unfold valid_char. lia.
      + replace [c] with (char_put c); [apply putc_encodes; unfold valid_char; lia|]. unfold char_put, u8. destruct (Z.leb_spec 128 c); [lia|]. rewrite Z.mod_small by lia. reflexivity.
    - do 6 (split; auto). lia. }
  split. { intros i (a & b & E & _). assert (In 0%Z (repeat 97%Z 300)) as H by (rewrite E; apply in_or_app; right; right; left; auto). apply repeat_spec in H. discriminate. }
  split. { apply Ascii. - apply Forall_forall. intros x Hx. apply repeat_spec in Hx. lia. - rewrite repeat_length. lia. - repeat constructor; unfold is_byte; lia. }
  split. { apply Ascii; repeat constructor; lia. }
  split; [vm_compute; reflexivity|]. split; vm_compute; reflexivity.
Qed.
(** string-split by a character with a limit on the number of splits *)
Theorem string_split_char : forall str cs c limit, holds str cs -> valid_char c ->
  exists bs ps, string_split_by_char str c limit = Ok bs /\ Forall2 holds bs ps /\ split_spec c limit cs ps.
Proof.
  intros str cs c limit H Vc. unfold string_split_by_char.
  assert (Z0 : exists bs ps, Ok [str] = Ok bs /\ Forall2 holds bs ps /\ split_spec c (Some 0) cs ps). { exists [str], [cs]. split; auto. split; auto. split; [reflexivity|]. split; [discriminate|]. split; auto. constructor. }
  destruct (holds_enc str cs H) as (x & V & _ & S & L & _). pose proof (length_enc_ge cs V).
  destruct limit as [[|n]|]; auto; apply split_by_ok; auto; try discriminate; lia.
Qed.
(** the split is determined by what the theorem says *)
Theorem split_spec_unique : forall c cs ps qs, split_spec c None cs ps -> split_spec c None cs qs -> ps = qs.
Proof.
  intros c cs ps. revert cs. induction ps as [|p ps IH]; intros cs qs (J1 & N1 & F1) (J2 & N2 & F2); [contradiction|]. destruct qs as [|q qs]; [contradiction|].
  inversion F1 as [|? ? Hp Fp]; subst. inversion F2 as [|? ? Hq Fq]; subst.
  assert (Cut : forall (a b x y : list Z), ~ In c a -> ~ In c b -> a ++ c :: x = b ++ c :: y -> a = b /\ x = y).
  { induction a as [|u a IHa]; intros b x y Na Nb E; destruct b as [|v b].
    - injection E as ->. auto. - injection E as <- _. exfalso. apply Nb. now left. - injection E as -> _. exfalso. apply Na. now left.
    - injection E as <- E. destruct (IHa b x y) as (-> & ->); auto. + intros K. apply Na. now right. + intros K. apply Nb. now right. }
  destruct ps as [|p2 ps], qs as [|q2 qs].
  - cbn [join] in J2. now subst.
  - change (q ++ c :: join c (q2 :: qs) = p) in J2. exfalso. apply Hp. rewrite <- J2. apply in_or_app. right. now left.
  - change (q = p ++ c :: join c (p2 :: ps)) in J2. exfalso. apply Hq. rewrite J2. apply in_or_app. right. now left.
  - change (q ++ c :: join c (q2 :: qs) = p ++ c :: join c (p2 :: ps)) in J2. destruct (Cut _ _ _ _ Hq Hp J2) as (-> & E). f_equal. apply (IH (join c (p2 :: ps))).
    + split; auto. split; [discriminate|auto].
    + split; auto. split; [discriminate|auto].
Qed.

(** examples: "abcabd" contains "abd" at 3; "a,b,,c" split at commas *)
Example scan_ex : string_scan (bytes_body [97;98;99;97;98;100]%Z []) (bytes_body [97;98;100]%Z []) SIndex string_search = Ok [VInt 3].
Proof. reflexivity. Qed.
Example scan_long_ex : string_scan (bytes_body (repeat 97%Z 300 ++ [98;99]%Z) []) (bytes_body [97;98]%Z []) SIndex string_search = Ok [VInt 299].
Proof. vm_compute. reflexivity. Qed.
Example split_ex : match string_split_by_char (bytes_body [97;44;98;44;44;99]%Z []) 44%Z None with Ok l => map b_size l = [1;1;0;1] | _ => False end.
Proof. vm_compute. reflexivity. Qed.

Print Assumptions string_search_leftmost.
Print Assumptions string_scan_leftmost.
Print Assumptions string_scan_right_partial.
Print Assumptions string_scan_right_refuted.
Print Assumptions string_split_char.
Print Assumptions split_spec_unique.
