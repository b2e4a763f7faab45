(** Words, characters, symbols and integers read back *)
From Coq Require Import List Bool ZArith Lia String.
From Verif Require Import Outcome BignumModel IntModel IntSpec IntTextModel IntTextSpec IntTextProofs RwModel RwSpec RwProofs.
Import ListNotations.
Local Open Scope list_scope.
Local Open Scope Z_scope.
Ltac Zify.zify_post_hook ::= idtac.

(** ** character classes *)
Lemma ascii_all : forall P : Z -> bool, forallb P (map Z.of_nat (seq 0 128)) = true -> forall c, 0 <= c < 128 -> P c = true.
Proof. intros P H c Hc. rewrite forallb_forall in H. apply H. apply in_map_iff. exists (Z.to_nat c). split; [lia|]. apply in_seq. lia. Qed.
Lemma ascii_word : forall c k, 0 <= c < 128 -> Z.testbit (nth (Z.to_nat c) lex_bits 0) (lex_bit k) = true -> Z.testbit (nth (Z.to_nat c) word_bits 0) 0 = true /\ c <> 35.
Proof.
  intros c k Hc H. pose (P := fun c => forallb (fun b => negb (Z.testbit (nth (Z.to_nat c) lex_bits 0) b) || (Z.testbit (nth (Z.to_nat c) word_bits 0) 0 && negb (c =? 35))) [0; 1; 2]).
  assert (K : P c = true) by (apply ascii_all; [vm_compute; reflexivity|auto]). unfold P in K. rewrite forallb_forall in K.
  specialize (K (lex_bit k)). rewrite H in K. assert (I : In (lex_bit k) [0; 1; 2]) by (destruct k; cbn; auto). apply K in I. cbn [negb orb] in I. apply andb_true_iff in I. destruct I as [I1 I2]. split; auto. apply negb_true_iff, Z.eqb_neq in I2. auto.
Qed.
Lemma lex_constituent : forall gc h c k, character c -> ~ odd_char gc c -> lexer_category gc c k = true -> constituent gc h c = true /\ c <> 35.
Proof.
  intros gc h c k Hc O H. unfold character in Hc. unfold lexer_category in H. unfold constituent. destruct (Z.ltb_spec c 128).
  - destruct (ascii_word c k ltac:(lia) H) as [A B]. rewrite A. auto.
  - split; [|lia]. destruct (Z.eqb_spec c 8204) as [E|N1]; [reflexivity|]. destruct (Z.eqb_spec c 8205) as [E|N2]; [reflexivity|]. cbn [orb] in H |- *.
    destruct (word_cat (gc c)); auto. exfalso. apply O. split; auto. split; auto. split; auto. destruct (gc c); auto; discriminate.
Qed.
Lemma delim_not : forall gc h c, In c delimiters -> constituent gc h c = false.
Proof. intros gc h c H. unfold delimiters in H. cbn [In] in H. destruct h; repeat (destruct H as [<-|H]; [reflexivity|]); contradiction. Qed.
Lemma delimited_space : forall t, delimited (32 :: t). Proof. intros. cbn; auto. Qed.
Lemma delimited_close : forall t, delimited (41 :: t). Proof. intros. cbn; auto 10. Qed.
Lemma read_word_ok : forall gc h w rest fold, forallb (constituent gc h) w = true -> delimited rest ->
  read_word gc fold h (w ++ rest) = (map (fun c => if fold && case_fold_p c then tolower c else c) w, rest).
Proof.
  intros gc h w rest fold. induction w as [|c w IH]; intros F D.
  - cbn [app map]. destruct rest as [|c t]; [reflexivity|]. cbn [read_word]. now rewrite (delim_not gc h c D).
  - cbn [forallb] in F. apply andb_true_iff in F. destruct F as [F1 F2]. cbn [app read_word map]. rewrite F1. now rewrite IH.
Qed.
Lemma read_word_nofold : forall gc h w rest, forallb (constituent gc h) w = true -> delimited rest -> read_word gc false h (w ++ rest) = (w, rest).
Proof. intros. rewrite read_word_ok by auto. cbn [andb]. now rewrite map_id. Qed.

(** ** characters *)
Lemma ascii_constituent : forall gc h c, 0 <= c < 128 -> Z.testbit (nth (Z.to_nat c) word_bits 0) 0 = true -> constituent gc h c = true.
Proof. intros gc h c Hc H. unfold constituent. rewrite (proj2 (Z.ltb_lt c 128)) by lia. now rewrite H. Qed.
Lemma xdigit_word : forall gc h b, isxdigit b = true -> constituent gc h b = true /\ (97 <= b -> case_fold_p b = false) /\ 48 <= b < 128 /\ (b < 65 -> case_fold_p b = false).
Proof.
  intros gc h b X. assert (R : 0 <= b < 128). { unfold isxdigit in X. destruct (Z.leb_spec 48 b), (Z.leb_spec b 57), (Z.leb_spec 65 b), (Z.leb_spec b 70), (Z.leb_spec 97 b), (Z.leb_spec b 102); cbn in X; try discriminate; lia. }
  pose (P := fun b => negb (isxdigit b) || (Z.testbit (nth (Z.to_nat b) word_bits 0) 0 && (negb (97 <=? b) || negb (case_fold_p b)) && (48 <=? b) && (negb (b <? 65) || negb (case_fold_p b)))).
  assert (K : P b = true) by (apply ascii_all; [vm_compute; reflexivity|auto]). unfold P in K. rewrite X in K. cbn [negb orb] in K. rewrite !andb_true_iff in K. destruct K as (((K1 & K2) & K3) & K4).
  apply Z.leb_le in K3. split; [apply ascii_constituent; auto|]. split; [|split; [lia|]].
  - intros L. rewrite (proj2 (Z.leb_le 97 b)) in K2 by lia. cbn [negb orb] in K2. now apply negb_true_iff in K2.
  - intros L. rewrite (proj2 (Z.ltb_lt b 65)) in K4 by lia. cbn [negb orb] in K4. now apply negb_true_iff in K4.
Qed.
Lemma hexd_low : forall d, 0 <= d < 16 -> case_fold_p (hexd d) = false.
Proof.
  intros d H. destruct (hexd_ok d H) as (X & _). destruct (xdigit_word (fun _ => Lu) false _ X) as (_ & A & _ & B). unfold hexd in *. destruct (Z.ltb_spec d 10); [apply B|apply A]; lia.
Qed.
Lemma hex_loop_low : forall fuel n acc, 0 <= n -> Forall (fun b => case_fold_p b = false) acc -> Forall (fun b => case_fold_p b = false) (hex_loop fuel n acc).
Proof.
  induction fuel as [|f IH]; intros n acc Hn F; auto. cbn [hex_loop]. destruct (Z.ltb_spec n 16). { constructor; auto. apply hexd_low. lia. }
  apply IH. { apply Z.div_pos; lia. } constructor; auto. apply hexd_low. apply Z.mod_pos_bound. lia.
Qed.
Lemma hex_pad_low : forall w n, 0 <= n -> Forall (fun b => case_fold_p b = false) (hex_pad w n).
Proof. intros w n H. unfold hex_pad. cbv zeta. apply Forall_app. split; [|now apply hex_loop_low]. generalize (w - List.length (hex n))%nat as k. induction k; cbn [repeat]; [constructor|constructor; auto]. Qed.
Lemma map_low : forall l, Forall (fun b => case_fold_p b = false) l -> map (fun c => if true && case_fold_p c then tolower c else c) l = l.
Proof. intros l. induction 1 as [|b l H F IH]; cbn [map]; [reflexivity|]. cbn [andb] in *. now rewrite H, IH. Qed.
Lemma read_char_hex : forall gc ds c rest, hexdigits ds -> ds <> [] -> Forall (fun b => case_fold_p b = false) ds -> xval 0 ds = c -> 0 <= c <= CHAR_MAX -> delimited rest ->
  read_char gc ([120] ++ ds ++ rest) = Got (DChar c) rest.
Proof.
  intros gc ds c rest F N L V B D. cbn [app]. unfold read_char. change (existsb (Z.eqb 120) _) with false. cbv iota. unfold read_word_from.
  assert (Fc : forallb (constituent gc false) ds = true). { apply forallb_forall. intros x I. unfold hexdigits in F. rewrite Forall_forall in F. apply xdigit_word. apply F, I. }
  rewrite read_word_ok by auto. rewrite map_low by auto. change (true && case_fold_p 120) with false. cbv iota.
  destruct ds as [|d ds]; [contradiction|]. assert (E : existsb (fun x => 128 <=? x) (120 :: d :: ds) = false).
  { cbn [existsb]. change (128 <=? 120) with false. cbn [orb]. apply not_true_iff_false. intros T. change ((128 <=? d) || existsb (fun x => 128 <=? x) ds) with (existsb (fun x => 128 <=? x) (d :: ds)) in T. apply existsb_exists in T. destruct T as (x & I & Hx). unfold hexdigits in F. rewrite Forall_forall in F. apply F in I. apply Z.leb_le in Hx. lia. }
  rewrite E. inversion F as [|? ? (X & _) _]; subst. rewrite X. change (120 =? 120) with true. cbn [andb]. rewrite (read_xdigits_word (d :: ds) (xval 0 (d :: ds))); auto.
Qed.
Lemma read_char_raw : forall gc c rest, 33 <= c -> delimited rest -> read_char gc (c :: rest) = Got (DChar c) rest.
Proof.
  intros gc c rest Hc D. unfold read_char. destruct (existsb _ _) eqn:E; [reflexivity|]. unfold read_word_from. pose proof (read_word_ok gc false [] rest true eq_refl D) as R. cbn [app map] in R. rewrite R. reflexivity.
Qed.
Lemma read_char_name : forall gc w c rest, forallb (fun x => (0 <=? x) && (x <? 128) && Z.testbit (nth (Z.to_nat x) word_bits 0) 0 && negb (case_fold_p x)) w = true ->
  existsb (Z.eqb (hd 0 w)) [40; 41; 91; 93; 123; 125; 34; 32; 92; 124; 59; 35] = false -> (2 <=? List.length w)%nat = true ->
  (if (hd 0 w =? 120) && isxdigit (nth 1 w 0) then match read_xdigits Kx false (tl w) with XChar code [] => code =? c | _ => false end
   else negb ((hd 0 w =? 117) && isxdigit (nth 1 w 0)) && match find_name w char_names with Some code => code =? c | None => false end) = true ->
  delimited rest -> read_char gc (w ++ rest) = Got (DChar c) rest.
Proof.
  intros gc w c rest F X L K D. destruct w as [|a [|b w]]; try discriminate. cbn [hd nth tl] in X, K.
  assert (Fc : forallb (constituent gc false) (a :: b :: w) = true /\ map (fun c => if true && case_fold_p c then tolower c else c) (a :: b :: w) = a :: b :: w /\ existsb (fun x => 128 <=? x) (a :: b :: w) = false).
  { clear X L K. revert F. generalize (a :: b :: w) as l. induction l as [|x l IH]; intros F; [repeat split; reflexivity|]. cbn [forallb] in F. rewrite !andb_true_iff in F. destruct F as ((((F1 & F2) & F3) & F4) & F5). destruct (IH F5) as (I1 & I2 & I3).
    apply Z.leb_le in F1. apply Z.ltb_lt in F2. apply negb_true_iff in F4. cbn [forallb map existsb]. rewrite I1, I2, I3. rewrite ascii_constituent by (auto; lia). cbn [andb] in *. rewrite F4. rewrite (proj2 (Z.leb_gt 128 x)) by lia. auto. }
  destruct Fc as (C1 & C2 & C3). cbn [app]. unfold read_char. rewrite X. unfold read_word_from. cbn [forallb] in C1. apply andb_true_iff in C1. destruct C1 as [C0 C1].
  change (b :: w ++ rest) with ((b :: w) ++ rest). rewrite read_word_ok by auto. cbn [map andb] in C2. injection C2 as C2a C2b C2c. cbn [map andb]. rewrite C2a, C2b, C2c, C3.
  destruct ((a =? 120) && isxdigit b). { destruct (read_xdigits Kx false (b :: w)) as [|code [|]]; try discriminate. apply Z.eqb_eq in K. now subst. }
  apply andb_true_iff in K. destruct K as [K1 K2]. apply negb_true_iff in K1. rewrite K1. destruct (find_name (a :: b :: w) char_names); try discriminate. apply Z.eqb_eq in K2. now subst.
Qed.
Lemma read_char_written : forall gc c rest, character c -> delimited rest -> exists t, write_char gc c = [35; 92] ++ t /\ read_char gc (t ++ rest) = Got (DChar c) rest.
Proof.
  intros gc c rest Hc D. unfold write_char. eexists. split; [reflexivity|]. unfold character in Hc. assert (CM : 0 <= c <= CHAR_MAX) by (unfold CHAR_MAX; lia).
  destruct (Z.leb_spec c 32).
  - assert (K : exists n, (n < 33)%nat /\ c = Z.of_nat n) by (exists (Z.to_nat c); split; lia). destruct K as (n & Hn & ->). rewrite Nat2Z.id.
    do 33 (destruct n as [|n]; [apply read_char_name; auto; vm_compute; reflexivity|]). lia.
  - destruct (Z.eqb_spec c 127) as [->|N]; [apply read_char_name; auto; vm_compute; reflexivity|].
    assert (HX : read_char gc (([120] ++ hex_pad 4 c) ++ rest) = Got (DChar c) rest). { rewrite <- app_assoc. destruct (hex_pad_ok 4 c CM) as (A & B & C). apply read_char_hex; auto. apply hex_pad_low. lia. }
    assert (RAW : read_char gc ([c] ++ rest) = Got (DChar c) rest) by (apply read_char_raw; auto; lia).
    destruct (gc c); auto.
Qed.

(** ** symbols *)
Lemma read_uint_nondigit : forall limit x t, ~ (48 <= x <= 57) -> read_uint 10 limit (x :: t) = Ok (None, x :: t, false).
Proof.
  intros limit x t H. unfold read_uint. rewrite (proj2 (Z.eqb_neq x 48)) by lia. cbn [ru_loop negb orb andb]. destruct (Z.eqb_spec (tolower x) 95); [reflexivity|].
  assert (DV : digit_val 10 (tolower x) = None).
  { unfold digit_val, tolower. destruct (Z.leb_spec 65 x), (Z.leb_spec x 90); cbn [andb].
    - rewrite (proj2 (Z.leb_gt (x + 32) 57)) by lia. rewrite andb_false_r. rewrite (proj2 (Z.leb_le 97 (x + 32))), (proj2 (Z.leb_le (x + 32) 122)) by lia. cbn [andb]. rewrite (proj2 (Z.ltb_ge (x + 32 - 87) 10)) by lia. reflexivity.
    - destruct (Z.leb_spec 48 x), (Z.leb_spec x 57), (Z.leb_spec 97 x), (Z.leb_spec x 122); cbn [andb]; try lia; try reflexivity; rewrite (proj2 (Z.ltb_ge _ 10)) by lia; reflexivity.
    - destruct (Z.leb_spec 48 x), (Z.leb_spec x 57), (Z.leb_spec 97 x), (Z.leb_spec x 122); cbn [andb]; try lia; try reflexivity; rewrite (proj2 (Z.ltb_ge _ 10)) by lia; reflexivity.
    - lia. }
  rewrite DV. reflexivity.
Qed.
Lemma tolower_eq : forall k b, 97 <= k <= 122 -> (k =? tolower b) = ((b =? k) || (b =? k - 32)).
Proof. intros k b H. unfold tolower. destruct (Z.leb_spec 65 b), (Z.leb_spec b 90), (Z.eqb_spec b k), (Z.eqb_spec b (k - 32)); cbn [andb orb]; first [apply Z.eqb_eq; lia|apply Z.eqb_neq; lia]. Qed.
Lemma tolower_eq2 : forall k b, 40 <= k <= 64 -> (k =? tolower b) = (b =? k).
Proof. intros k b H. unfold tolower. destruct (Z.leb_spec 65 b), (Z.leb_spec b 90), (Z.eqb_spec b k); cbn [andb orb]; first [apply Z.eqb_eq; lia|apply Z.eqb_neq; lia]. Qed.
Lemma nan_inf_ok : forall p, nan_inf p = false -> starts_nocase [105; 110; 102; 46; 48] p = false /\ starts_nocase [110; 97; 110; 46; 48] p = false.
Proof.
  intros p H. destruct p as [|p0 [|p1 [|p2 [|p3 [|p4 p]]]]]; cbn [starts_nocase nan_inf] in *; rewrite ?andb_false_r; auto.
  rewrite ?(tolower_eq2 46), ?(tolower_eq2 48), ?(tolower_eq 105), ?(tolower_eq 110), ?(tolower_eq 102), ?(tolower_eq 97) by lia. change (105 - 32) with 73. change (110 - 32) with 78. change (102 - 32) with 70. change (97 - 32) with 65.
  destruct (p3 =? 46), (p4 =? 48); rewrite ?andb_false_r, ?andb_true_r; auto. cbn [andb] in H. apply orb_false_iff in H. destruct H as [H1 H2]. rewrite !andb_assoc. split; [exact H2|exact H1].
Qed.
Lemma lex_not_digit : forall gc c k, 0 <= c -> (k = INITIAL \/ k = SIGN_SUBSEQUENT) -> lexer_category gc c k = true -> ~ (48 <= c <= 57).
Proof.
  intros gc c k H0 Hk H R. unfold lexer_category in H. rewrite (proj2 (Z.ltb_lt c 128)) in H by lia.
  pose (P := fun c => negb ((48 <=? c) && (c <=? 57)) || (negb (Z.testbit (nth (Z.to_nat c) lex_bits 0) 0) && negb (Z.testbit (nth (Z.to_nat c) lex_bits 0) 2))).
  assert (K : P c = true) by (apply ascii_all; [vm_compute; reflexivity|lia]). unfold P in K. rewrite (proj2 (Z.leb_le 48 c)), (proj2 (Z.leb_le c 57)) in K by lia. cbn [andb negb orb] in K. apply andb_true_iff in K. destruct K as [K1 K2]. apply negb_true_iff in K1, K2. destruct Hk; subst k; cbn [lex_bit] in H; congruence.
Qed.
Lemma esc_dot_cons : forall gc s, esc_dot gc s = false -> exists ch t, s = ch :: t /\ (ch = 46 \/ lexer_category gc ch SIGN_SUBSEQUENT = true) /\ all_subsequent gc t = true.
Proof.
  intros gc s H. destruct s as [|ch t]; [discriminate|]. exists ch, t. split; auto. cbn [esc_dot] in H. destruct (Z.eqb_spec ch 46), (lexer_category gc ch SIGN_SUBSEQUENT); cbn [negb andb] in H; try discriminate; apply negb_false_iff in H; auto.
Qed.
Lemma esc_dot_nondigit : forall gc ch, 0 <= ch -> ch = 46 \/ lexer_category gc ch SIGN_SUBSEQUENT = true -> ~ (48 <= ch <= 57).
Proof. intros gc ch H0 [->|H]; [lia|]. eapply lex_not_digit; eauto. Qed.
Lemma not_number : forall gc limit name, Forall character name -> escape_required gc name = false -> In (hd 0 name) [43; 45; 46] -> string_to_number limit name = Ok SFalse.
Proof.
  intros gc limit name Fc H Hh. unfold string_to_number. destruct (existsb _ name) eqn:EX; [reflexivity|]. clear EX. destruct name as [|c p]; [discriminate|]. inversion Fc as [|? ? Hc Fp]; subst. cbn [hd In] in Hh. cbn [escape_required] in H.
  destruct (Z.eqb_spec c 46) as [->|N46].
  - change ((46 =? 43) || (46 =? 45)) with false in H. cbv iota in H. unfold after_sign. change ((46 =? 43) || (46 =? 45)) with false. cbv iota. change (46 =? 46) with true. cbn [tl].
    destruct (esc_dot_cons gc p H) as (ch & t & -> & E & A). inversion Fp as [|? ? Hch Ft]; subst. rewrite read_uint_nondigit; [reflexivity|]. eapply esc_dot_nondigit; eauto. apply Hch.
  - assert (S : (c =? 43) || (c =? 45) = true) by (destruct Hh as [<-|[<-|[<-|[]]]]; auto; lia). rewrite S in H. unfold after_sign. rewrite S. destruct p as [|p0 t].
    { unfold read_number. change ((10 <? 2) || (36 <? 10)) with false. cbv iota. destruct Hh as [<-|[<-|[<-|[]]]]; try reflexivity. lia. }
    inversion Fp as [|? ? Hp0 Ft]; subst. destruct (Z.eqb_spec p0 46) as [->|Np0].
    + cbn [tl]. destruct (esc_dot_cons gc t H) as (ch & t' & -> & E & A). inversion Ft as [|? ? Hch Ft']; subst. rewrite read_uint_nondigit; [reflexivity|]. eapply esc_dot_nondigit; eauto. apply Hch.
    + destruct (match t with [] => true | _ => false end && ((p0 =? 105) || (p0 =? 73))) eqn:EI; [discriminate|]. destruct (nan_inf (p0 :: t)) eqn:EN; [discriminate|]. destruct (lexer_category gc p0 SIGN_SUBSEQUENT) eqn:EL; [|discriminate]. cbn [negb] in H. apply negb_false_iff in H.
      destruct (nan_inf_ok _ EN) as [I1 I2]. assert (ND : ~ (48 <= p0 <= 57)) by (eapply lex_not_digit; eauto; apply Hp0).
      assert (RR : read_real 10 limit (c :: p0 :: t) = Ok RdFalse).
      { unfold read_real. assert (S2 : (c =? 45) || (c =? 43) = true) by (rewrite orb_comm; exact S). rewrite S2. cbv iota zeta. rewrite I1, I2. cbn [orb andb]. rewrite (proj2 (Z.eqb_neq p0 46)) by auto. rewrite read_uint_nondigit by auto. reflexivity. }
      assert (RN : read_number 10 limit (c :: p0 :: t) = Ok RdFalse).
      { unfold read_number. change ((10 <? 2) || (36 <? 10)) with false. cbv iota. assert (N35 : c = 43 \/ c = 45) by lia. destruct N35; subst c; cbv iota; cbn [Z.eqb Pos.eqb orb]; destruct t; auto; destruct ((p0 =? 105) || (p0 =? 73)); auto; discriminate. }
      now rewrite RN.
Qed.
Lemma no_hash : forall s, Forall (fun c => c <> 35) s -> existsb (Z.eqb 35) s = false.
Proof. intros s F. apply not_true_iff_false. intros T. apply existsb_exists in T. destruct T as (x & I & E). apply Z.eqb_eq in E. subst. rewrite Forall_forall in F. now apply (F 35 I). Qed.
(** the characters of a name written without bars are constituents of words *)
Lemma dot_constituent : forall gc h, constituent gc h 46 = true /\ constituent gc h 43 = true /\ constituent gc h 45 = true.
Proof. intros gc h. destruct h; repeat split; reflexivity. Qed.
Lemma bare_constituents : forall gc h name, Forall character name -> plain gc name -> escape_required gc name = false -> forallb (constituent gc h) name = true /\ Forall (fun c => c <> 35) name.
Proof.
  intros gc h. assert (ALL : forall s, Forall character s -> plain gc s -> all_subsequent gc s = true -> forallb (constituent gc h) s = true /\ Forall (fun c => c <> 35) s).
  { induction s as [|c s IH]; intros F P A; [auto|]. inversion F; inversion P; subst. unfold all_subsequent in A. cbn [forallb] in A. apply andb_true_iff in A. destruct A as [A1 A2]. destruct (IH ltac:(auto) ltac:(auto) A2) as [I1 I2]. destruct (lex_constituent gc h c SUBSEQUENT ltac:(auto) ltac:(auto) A1) as [L1 L2]. cbn [forallb]. rewrite L1, I1. auto. }
  assert (DOT : forall s, Forall character s -> plain gc s -> esc_dot gc s = false -> forallb (constituent gc h) s = true /\ Forall (fun c => c <> 35) s).
  { intros s F P E. destruct (esc_dot_cons gc s E) as (ch & t & -> & C & A). inversion F; inversion P; subst. destruct (ALL t ltac:(auto) ltac:(auto) A) as [I1 I2]. cbn [forallb]. rewrite I1. destruct C as [->|C]. { split; [now destruct (dot_constituent gc h) as (-> & _)|]. constructor; auto. lia. } destruct (lex_constituent gc h ch _ ltac:(auto) ltac:(auto) C) as [L1 L2]. rewrite L1. auto. }
  intros name F P H. destruct name as [|c p]; [discriminate|]. inversion F as [|? ? Hc Fp]; inversion P as [|? ? Pc Pp]; subst. cbn [escape_required] in H. cbn [forallb]. destruct (dot_constituent gc h) as (D1 & D2 & D3).
  destruct ((c =? 43) || (c =? 45)) eqn:S.
  - assert (C43 : c = 43 \/ c = 45) by lia. assert (Cc : constituent gc h c = true /\ c <> 35) by (destruct C43; subst c; split; auto; lia). destruct Cc as [Cc Ch]. rewrite Cc. destruct p as [|p0 t]; [split; auto|]. destruct (Z.eqb_spec p0 46) as [->|Np].
    + inversion Fp; inversion Pp; subst. destruct (DOT t ltac:(auto) ltac:(auto) H) as [I1 I2]. cbn [forallb]. rewrite D1, I1. split; auto. constructor; auto. constructor; auto. lia.
    + destruct (_ && _); [discriminate|]. destruct (nan_inf _); [discriminate|]. destruct (lexer_category gc p0 SIGN_SUBSEQUENT) eqn:EL; [|discriminate]. cbn [negb] in H. apply negb_false_iff in H. inversion Fp; inversion Pp; subst.
      destruct (ALL t ltac:(auto) ltac:(auto) H) as [I1 I2]. destruct (lex_constituent gc h p0 _ ltac:(auto) ltac:(auto) EL) as [L1 L2]. cbn [forallb]. rewrite L1, I1. auto.
  - destruct (Z.eqb_spec c 46) as [->|N]. { destruct (DOT p Fp Pp H) as [I1 I2]. rewrite D1, I1. split; auto. constructor; auto. lia. }
    destruct (lexer_category gc c INITIAL) eqn:EL; [|discriminate]. cbn [negb] in H. apply negb_false_iff in H. destruct (ALL p Fp Pp H) as [I1 I2]. destruct (lex_constituent gc h c _ Hc Pc EL) as [L1 L2]. rewrite L1, I1. auto.
Qed.
(** the escaped form *)
Lemma read_escaped_S : forall f acc c t, read_escaped (S f) acc (c :: t) =
      if c =? 124 then Got acc t
      else if c =? 92 then
        match t with
        | [] => Fail
        | e :: t' =>
          if e =? 120 then
            match read_xdigits_port Kx t' with None => Fail | Some (cs, r) => read_escaped f (acc ++ cs) r end
          else read_escaped f (acc ++ [if e =? 97 then 7 else if e =? 98 then 8 else if e =? 116 then 9
                                       else if e =? 110 then 10 else if e =? 114 then 13 else e]) t'
        end
      else read_escaped f (acc ++ [c]) t.
Proof. reflexivity. Qed.
Lemma symbol_putc_ok : forall c f acc tl, character c -> read_escaped (S f) acc (symbol_putc c ++ tl) = read_escaped f (acc ++ [c]) tl /\ (1 <= List.length (symbol_putc c))%nat.
Proof.
  intros c f acc tl H. unfold character in H. unfold symbol_putc. destruct (Z.ltb_spec c 128).
  - destruct (Z.eqb_spec c 124) as [->|N1]; [split; [reflexivity|cbn; lia]|]. destruct (Z.eqb_spec c 92) as [->|N2]; [split; [reflexivity|cbn; lia]|]. cbn [orb].
    destruct ((c <? 32) || (c =? 127)).
    + split; [|rewrite app_length; cbn [List.length]; lia]. rewrite <- app_assoc. cbn [app]. rewrite read_escaped_S. change (92 =? 124) with false. change (92 =? 92) with true. change (120 =? 120) with true. cbv iota. rewrite <- app_assoc. cbn [app].
      destruct (hex_pad_ok 2 c ltac:(unfold CHAR_MAX; lia)) as (A & B & C). rewrite (read_xdigits_port_ok _ _ c); auto; unfold CHAR_MAX; lia.
    + split; [|cbn; lia]. cbn [app]. rewrite read_escaped_S. now rewrite (proj2 (Z.eqb_neq c 124)), (proj2 (Z.eqb_neq c 92)) by auto.
  - split; [|cbn; lia]. cbn [app]. rewrite read_escaped_S. now rewrite (proj2 (Z.eqb_neq c 124)), (proj2 (Z.eqb_neq c 92)) by lia.
Qed.
Lemma read_escaped_written : forall s fuel acc rest, Forall character s -> (List.length (flat_map symbol_putc s) < fuel)%nat ->
  read_escaped fuel acc (flat_map symbol_putc s ++ 124 :: rest) = Got (acc ++ s) rest.
Proof.
  induction s as [|c s IH]; intros fuel acc rest F Hf; (destruct fuel; [lia|]).
  - cbn [flat_map app]. rewrite read_escaped_S. change (124 =? 124) with true. cbv iota. now rewrite app_nil_r.
  - inversion F as [|? ? Hc Fs]; subst. cbn [flat_map] in Hf |- *. rewrite app_length in Hf. rewrite <- app_assoc. destruct (symbol_putc_ok c fuel acc (flat_map symbol_putc s ++ 124 :: rest) Hc) as [E L]. rewrite E, IH by (auto; lia). now rewrite <- app_assoc.
Qed.
