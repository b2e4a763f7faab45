(** * C42-C45: what is written is read back *)
From Coq Require Import List Bool ZArith Lia String.
From Verif Require Import Outcome BignumModel IntModel IntSpec IntTextModel IntTextSpec IntTextProofs IntProofs RwModel RwSpec RwProofs RwProofs2 RwProofs3 RwProofs4 RwProofs5.
Import ListNotations.
Local Open Scope list_scope.
Local Open Scope Z_scope.
Ltac Zify.zify_post_hook ::= idtac.

(** whatever enough fuel gives is what read gives *)
Lemma read_stable : forall gc limit inp d rest, (exists M, forall g, (M <= g)%nat -> read_internal gc limit g inp = Got (Some d) rest) -> read gc limit inp = Got d rest.
Proof.
  intros gc limit inp d rest (M & HM). rewrite <- (read_any_fuel gc limit inp (S (max M (4 * List.length inp + 4)))) by lia. rewrite read_item_S, HM by lia. reflexivity.
Qed.

(** ** C42: strings.  No delimiter is needed after the closing quote. *)
Theorem string_written_is_read : forall gc limit s rest, Forall character s -> read gc limit (write_string gc s ++ rest) = Got (DStr s) rest.
Proof. intros gc limit s rest F. apply read_stable. exists 1%nat. intros g Hg. now apply read_internal_string. Qed.
Theorem incomplete_string_written_is_read : forall gc limit s rest, Forall byte s -> read gc limit (write_bytes gc s ++ rest) = Got (DBytes s) rest.
Proof. intros gc limit s rest F. apply read_stable. exists 1%nat. intros g Hg. now apply read_internal_bytes. Qed.
(** so different strings are written differently, and no written string begins another *)
Theorem string_text_prefix_free : forall gc s s' rest, Forall character s -> Forall character s' -> write_string gc s' = write_string gc s ++ rest -> s' = s /\ rest = [].
Proof.
  intros gc s s' rest F F' E. pose proof (string_written_is_read gc 0 s' [] F') as A. rewrite app_nil_r, E in A. rewrite string_written_is_read in A by auto. injection A as <- ->. auto.
Qed.
(** the text has no control character, so that it stays on one line *)
Theorem string_text_no_control : forall gc s, Forall character s -> (forall c, 128 <= c < 160 -> gc c = Cc) -> Forall (fun c => ~ (c < 32 \/ c = 127 \/ 128 <= c < 160)) (write_string gc s).
Proof.
  intros gc s F U. unfold write_string. apply Forall_app. split; [repeat constructor; lia|]. apply Forall_app. split; [|repeat constructor; lia].
  apply Forall_flat_map. eapply Forall_impl; [|exact F]. intros c Hc. unfold character in Hc.
  assert (HX : forall w, Forall (fun c => ~ (c < 32 \/ c = 127 \/ 128 <= c < 160)) ([92; 120] ++ hex_pad w c ++ [59])).
  { intros w. destruct (hex_pad_ok w c Hc) as (_ & HD & _). apply Forall_app; split; [repeat constructor; lia|]. apply Forall_app; split; [|repeat constructor; lia]. unfold hexdigits in HD. eapply Forall_impl; [|exact HD]. cbn beta. intros a [Ha La]. unfold isxdigit in Ha. lia. }
  assert (HY : Forall (fun c => ~ (c < 32 \/ c = 127 \/ 128 <= c < 160)) ([92; 120] ++ hex c ++ [59])).
  { destruct (hex_ok c Hc) as (_ & HD & _). apply Forall_app; split; [repeat constructor; lia|]. apply Forall_app; split; [|repeat constructor; lia]. unfold hexdigits in HD. eapply Forall_impl; [|exact HD]. cbn beta. intros a [Ha La]. unfold isxdigit in Ha. lia. }
  unfold string_putc. do 7 (match goal with |- Forall _ (if ?b then _ else _) => destruct b; [repeat constructor; lia|] end). rewrite !orb_false_r. destruct (Z.ltb_spec c 128).
  - destruct ((c <? 32) || (c =? 127)) eqn:E; [apply HX|]. apply orb_false_iff in E. destruct E as [E1 E2]. apply Z.ltb_ge in E1. apply Z.eqb_neq in E2. constructor; [lia|constructor].
  - pose proof (U c) as Uc. destruct (gc c) eqn:G; try (destruct (c <? 65536); [apply HX|apply HY]); (constructor; [intros K; assert (X : 128 <= c < 160) by lia; specialize (Uc X); discriminate|constructor]).
Qed.

(** ** C43: symbols *)
Theorem symbol_written_is_read_partial : forall gc limit name rest, unicode_spaces gc -> Forall character name -> plain gc name -> delimited rest ->
  read gc limit (write_symbol gc name ++ rest) = Got (DSym name) rest.
Proof. intros gc limit name rest U F P D. apply read_stable. destruct (reads_symbol gc limit name U F P) as (_ & R & _). now apply R. Qed.
(** a symbol between bars is read back whatever follows and whatever its characters are *)
Theorem bar_symbol_is_read : forall gc limit name rest, Forall character name -> escape_required gc name = true -> read gc limit (write_symbol gc name ++ rest) = Got (DSym name) rest.
Proof.
  intros gc limit name rest F E. apply read_stable. exists 1%nat. intros g Hg. destruct g as [|g]; [lia|].
  assert (W : write_symbol gc name = 124 :: flat_map symbol_putc name ++ [124]). { unfold write_symbol. destruct name; [reflexivity|]. rewrite E. reflexivity. }
  rewrite W. rewrite read_internal_S. cbn [app]. rewrite skipws_starts by starts_ascii. repeat match goal with |- context [124 =? ?k] => first [change (124 =? k) with false|change (124 =? k) with true] end. cbv iota. rewrite <- app_assoc. cbn [app]. rewrite read_escaped_written; auto. rewrite app_length. cbn [List.length]. lia.
Qed.
(** a name is never written so that it would be read as a number *)
Theorem bare_symbol_is_no_number : forall gc limit name, Forall character name -> escape_required gc name = false -> In (hd 0 name) [43; 45; 46] -> string_to_number limit name = Ok SFalse.
Proof. exact not_number. Qed.
(** The full statement is false: the writer takes decimal digits (Nd) and spacing and enclosing
    marks outside ASCII for constituents of symbols, the reader does not.  A name that begins with
    a letter, is written without bars and has such a character is cut there. *)
Lemma lex_not_hash : forall gc c k, 0 <= c -> lexer_category gc c k = true -> c <> 35.
Proof. intros gc c k Hc H ->. destruct k; vm_compute in H; discriminate. Qed.
Lemma read_word_prefix : forall gc p rest w r, Forall character p -> all_subsequent gc p = true -> ~ plain gc p -> read_word gc false true (p ++ rest) = (w, r) ->
  (List.length w < List.length p)%nat /\ Forall (fun c => c <> 35) w.
Proof.
  intros gc p rest. induction p as [|c p IH]; intros w r F A N H. { exfalso. apply N. constructor. }
  unfold all_subsequent in A. cbn [forallb] in A. apply andb_true_iff in A. destruct A as [Ac A]. inversion F as [|? ? Fc Fp]; subst. unfold character in Fc. cbn [app read_word] in H. destruct (constituent gc true c) eqn:C.
  - destruct (read_word gc false true (p ++ rest)) as [w' r'] eqn:E. injection H as <- <-. cbn [List.length].
    assert (Nc : ~ odd_char gc c). { intros (L & N1 & N2 & Hg). unfold constituent in C. rewrite (proj2 (Z.ltb_ge c 128)), (proj2 (Z.eqb_neq c 8204)), (proj2 (Z.eqb_neq c 8205)) in C by lia. cbn [orb] in C. destruct Hg as [G|[G|G]]; rewrite G in C; discriminate. }
    assert (Np : ~ plain gc p). { intros Pp. apply N. constructor; auto. }
    destruct (IH w' r' Fp A Np eq_refl) as [L NH]. split; [lia|]. constructor; auto. cbn [andb]. eapply lex_not_hash; [|exact Ac]. lia.
  - injection H as <- <-. cbn [List.length]. split; [lia|constructor].
Qed.
Theorem odd_symbol_is_cut_refuted : forall gc limit c p rest, 97 <= c <= 122 -> Forall character p -> escape_required gc (c :: p) = false -> ~ plain gc p ->
  write_symbol gc (c :: p) = c :: p /\
  exists name' rest', read gc limit (write_symbol gc (c :: p) ++ rest) = Got (DSym name') rest' /\ name' <> c :: p.
Proof.
  intros gc limit c p rest Hc F E N. assert (W : write_symbol gc (c :: p) = c :: p) by (unfold write_symbol; now rewrite E). split; auto. rewrite W.
  assert (A : all_subsequent gc p = true). { cbn [escape_required] in E. rewrite (proj2 (Z.eqb_neq c 43)), (proj2 (Z.eqb_neq c 45)), (proj2 (Z.eqb_neq c 46)) in E by lia. cbn [orb] in E. destruct (negb (lexer_category gc c INITIAL)); [discriminate|]. now destruct (all_subsequent gc p). }
  destruct (read_word gc false true (p ++ rest)) as [w r] eqn:R. destruct (read_word_prefix gc p rest w r F A N R) as [L NH]. exists (c :: w), r. split; [|intros K; injection K as ->; lia].
  apply read_stable. exists 1%nat. intros g Hg. destruct g as [|g]; [lia|]. rewrite read_internal_S. cbn [app].
  assert (ST : starts c). { split; [lia|]. split; [intros _; split; [unfold isspace; lia|lia]|]. split; [lia|]. lia. }
  rewrite skipws_starts by auto. repeat match goal with |- context [c =? ?k] => rewrite (proj2 (Z.eqb_neq c k)) by lia end. assert (DG : (48 <=? c) && (c <=? 57) = false) by lia. rewrite DG. cbn [orb]. unfold read_symbol, read_word_from. rewrite R. cbn [andb]. unfold intern_valid. rewrite no_hash; [reflexivity|]. constructor; [lia|auto].
Qed.

(** ** C44: characters *)
Theorem char_written_is_read : forall gc limit c rest, character c -> delimited rest -> read gc limit (write_char gc c ++ rest) = Got (DChar c) rest.
Proof. intros gc limit c rest H D. apply read_stable. destruct (reads_char gc limit c H) as (_ & R & _). now apply R. Qed.

(** ** C45: data *)
Theorem datum_written_is_read_partial : forall gc limit d, unicode_spaces gc -> 0 <= limit <= 2 ^ 63 / 10 + 2048 -> good gc d -> Z.of_nat (depth d) <= 16777216 ->
  exists text, (exists N, forall fuel, (N <= fuel)%nat -> write gc fuel d = Ok text) /\
               forall rest, delimited rest -> read gc limit (text ++ rest) = Got d rest.
Proof.
  intros gc limit d U Hl G Dp. assert (SL : Z.of_nat (depth d) <= STACK_LIMIT) by exact Dp.
  destruct (both_datum gc limit U Hl (size d) d (le_n _) G) as [(t & (N & W) & (_ & R & _)) _]. exists t. split.
  - exists (N + 1)%nat. intros fuel Hf. unfold write. apply (W [] [] t 1%nat); [cbn [List.length]; lia| |lia]. intros g Hg. destruct g as [|g]; [lia|]. reflexivity.
  - intros rest D. apply read_stable. now apply R.
Qed.
(** two data with the same text are equal *)
Theorem written_text_is_unique : forall gc limit d d' text N N', unicode_spaces gc -> 0 <= limit <= 2 ^ 63 / 10 + 2048 -> good gc d -> good gc d' -> Z.of_nat (depth d) <= 16777216 -> Z.of_nat (depth d') <= 16777216 ->
  (forall fuel, (N <= fuel)%nat -> write gc fuel d = Ok text) -> (forall fuel, (N' <= fuel)%nat -> write gc fuel d' = Ok text) -> d = d'.
Proof.
  intros gc limit d d' text N N' U Hl G G' D D' W W'. destruct (datum_written_is_read_partial gc limit d U Hl G D) as (t & (M & HM) & R). destruct (datum_written_is_read_partial gc limit d' U Hl G' D') as (t' & (M' & HM') & R').
  assert (E : t = text). { pose proof (HM (max M N) ltac:(lia)) as A. rewrite W in A by lia. congruence. } assert (E' : t' = text). { pose proof (HM' (max M' N') ltac:(lia)) as A. rewrite W' in A by lia. congruence. } subst t t'.
  specialize (R [] I). specialize (R' [] I). rewrite R in R'. congruence.
Qed.
(** several data on one port, separated by a space or a newline, are read one after the other *)
Fixpoint texts_of (ts : list (list Z)) : list Z := match ts with [] => [] | t :: r => t ++ 10 :: texts_of r end.
Fixpoint read_all (gc : Z -> cat) (limit : Z) (n : nat) (inp : list Z) : option (list datum) :=
  match n with
  | O => None
  | S m => match read gc limit inp with Got d rest => match read_all gc limit m rest with Some l => Some (d :: l) | None => None end | Eof => Some [] | _ => None end
  end.
Lemma read_newline : forall gc limit X, read gc limit (10 :: X) = read gc limit X.
Proof.
  intros. rewrite <- (read_any_fuel gc limit X (S (S (4 * List.length X + 6)))) by lia. rewrite <- (read_any_fuel gc limit (10 :: X) (S (S (4 * List.length X + 6)))) by (cbn [List.length]; lia).
  rewrite !(read_item_S gc limit (S _)), !(read_internal_S gc limit). reflexivity.
Qed.
Theorem data_sequence_is_read_partial : forall gc limit ds, unicode_spaces gc -> 0 <= limit <= 2 ^ 63 / 10 + 2048 -> Forall (good gc) ds -> Forall (fun d => Z.of_nat (depth d) <= 16777216) ds ->
  exists ts, Forall2 (fun d t => exists N, forall fuel, (N <= fuel)%nat -> write gc fuel d = Ok t) ds ts /\ read_all gc limit (S (List.length ds)) (texts_of ts) = Some ds.
Proof.
  intros gc limit ds U Hl G D. assert (H : exists ts, Forall2 (fun d t => exists N, forall fuel, (N <= fuel)%nat -> write gc fuel d = Ok t) ds ts /\ read_all gc limit (S (List.length ds)) (texts_of ts) = Some ds /\ read_all gc limit (S (List.length ds)) (10 :: texts_of ts) = Some ds).
  { induction ds as [|d ds IH]. { exists []. repeat split; auto. }
    inversion G; inversion D; subst. destruct IH as (ts & F & R1 & R2); auto. destruct (datum_written_is_read_partial gc limit d U Hl) as (t & W & R); auto. exists (t :: ts). split; [constructor; auto|]. cbn [texts_of List.length].
    assert (E : forall inp, read gc limit inp = Got d (10 :: texts_of ts) -> read_all gc limit (S (S (List.length ds))) inp = Some (d :: ds)). { intros inp E. change (read_all gc limit (S (S (List.length ds))) inp) with (match read gc limit inp with Got d rest => match read_all gc limit (S (List.length ds)) rest with Some l => Some (d :: l) | None => None end | Eof => Some [] | _ => None end). rewrite E, R2. reflexivity. }
    assert (DL : delimited (10 :: texts_of ts)) by (cbn; auto). split; apply E; [|rewrite read_newline]; now apply R. }
  destruct H as (ts & F & R & _). eauto.
Qed.

(** the reader ends on every text, and takes at least one character for a datum *)
Theorem reader_ends : forall gc limit text, read gc limit text <> NoFuel /\
  (forall d rest, read gc limit text = Got d rest -> (List.length rest < List.length text)%nat) /\
  (forall fuel, (4 * List.length text + 4 <= fuel)%nat -> read_item gc limit fuel text = read gc limit text).
Proof. intros. destruct (read_fine gc limit text) as [A B]. repeat split; auto. intros. now apply read_any_fuel. Qed.

(** ** Non-vacuity *)
(** the spaces, one digit and a combining mark; everything else outside ASCII is a letter *)
Definition gc0 (c : Z) : cat :=
  if existsb (Z.eqb c) [160; 5760; 8239; 8287; 12288] || ((8192 <=? c) && (c <=? 8202)) then Zs
  else if c =? 8232 then Zl else if c =? 8233 then Zp
  else if c =? 1635 then Nd else if c =? 2307 then Mc
  else if ((0 <=? c) && (c <? 32)) || ((127 <=? c) && (c <? 160)) then Cc else Lo.
Lemma gc0_spaces : unicode_spaces gc0.
Proof. split; [|split; reflexivity]. intros c H. unfold gc0. cbn [existsb]. decompose [or] H; try (subst c; reflexivity). destruct (Z.leb_spec 8192 c), (Z.leb_spec c 8202); try lia. cbn [andb]. now rewrite orb_true_r. Qed.
(** a list with a string, a vector, a quotation and a dotted tail; two symbols need bars *)
Definition d0 : datum := DPair (DSym [97]) (DPair (DStr [120; 10; 34; 955]) (DPair (DVec [DInt (Fix 1); DInt (Fix (-20)); DChar 32]) (DPair (quoted (zs "quote") (DSym [43; 105])) (DSym [65; 32; 124])))).
Lemma small_rlim : forall n, Z.abs n < 1000 -> Z.abs n < RLIM.
Proof. intros n H. apply Z.lt_le_trans with (W ^ 2); [apply Z.lt_trans with (1 := H); reflexivity|]. rewrite RLIM_eq. apply Z.pow_le_mono_r; [reflexivity|]. discriminate. Qed.
Lemma small_good : forall n, Z.abs n < 1000 -> good gc0 (DInt (Fix n)).
Proof. intros n H. refine (conj _ (small_rlim n H)). unfold canonical, in_fixnum_range. lia. Qed.
Lemma ascii_good : forall name, Forall (fun c => 0 <= c < 128) name -> good gc0 (DSym name).
Proof. intros name F. split; (eapply Forall_impl; [|exact F]); cbn beta; unfold character; [intros; lia|]. intros c L (K & _). lia. Qed.
Lemma good_pair : forall gc a b, good gc a -> good gc b -> good gc (DPair a b).
Proof. split; auto. Qed.
Example d0_good : good gc0 d0 /\ Z.of_nat (depth d0) <= 16777216.
Proof.
  split; [|vm_compute; discriminate].
  unfold d0, quoted. repeat apply good_pair; try (apply ascii_good; repeat constructor; lia); try exact I.
  - cbn [good]; repeat constructor; unfold character; lia.
  - apply good_vec. apply Forall_cons; [apply small_good; lia|]. apply Forall_cons; [apply small_good; lia|]. apply Forall_cons; [|apply Forall_nil]. cbn [good]; unfold character; lia.
Qed.
Example d0_text : write gc0 40 d0 = Ok (zs "(a ""x\n\""" ++ [955] ++ zs """ #(1 -20 #\space) '|+i| . |A \||)").
Proof. vm_compute. reflexivity. Qed.
Example d0_read : read gc0 922337203685477580 (zs "(a ""x\n\""" ++ [955] ++ zs """ #(1 -20 #\space) '|+i| . |A \||)") = Got d0 [].
Proof. vm_compute. reflexivity. Qed.
(** the symbol a followed by the Arabic-Indic digit three is written without bars, and read as
    the symbol a; in a list a name that begins with a dot turns into a dotted pair *)
Example digit_name_refuted : write_symbol gc0 [97; 1635] = [97; 1635] /\ read gc0 922337203685477580 [97; 1635] = Got (DSym [97]) [1635].
Proof. split; vm_compute; reflexivity. Qed.
Example dot_name_refuted : write gc0 10 (DPair (DSym [97]) (DPair (DSym [46; 1635]) DNil)) = Ok [40; 97; 32; 46; 1635; 41]
  /\ read gc0 922337203685477580 [40; 97; 32; 46; 1635; 41] = Got (DPair (DSym [97]) (DSym [1635])) [].
Proof. split; vm_compute; reflexivity. Qed.
(** why a bar does not delimit: the keyword : (an empty name) before |x| *)
Example bar_after_colon : write_symbol gc0 [58] ++ [124; 120; 124] = [58; 124; 120; 124] /\ read gc0 922337203685477580 [58; 124; 120; 124] = Got (DSym [58; 120]) [].
Proof. split; vm_compute; reflexivity. Qed.

Print Assumptions string_written_is_read.
Print Assumptions incomplete_string_written_is_read.
Print Assumptions string_text_prefix_free.
Print Assumptions string_text_no_control.
Print Assumptions symbol_written_is_read_partial.
Print Assumptions bar_symbol_is_read.
Print Assumptions bare_symbol_is_no_number.
Print Assumptions odd_symbol_is_cut_refuted.
Print Assumptions char_written_is_read.
Print Assumptions datum_written_is_read_partial.
Print Assumptions written_text_is_unique.
Print Assumptions data_sequence_is_read_partial.
Print Assumptions reader_ends.
