(** Reading back what was written: the whole datum *)
From Coq Require Import List Bool ZArith Lia String.
From Verif Require Import Outcome BignumModel IntModel IntSpec IntTextModel IntTextSpec IntTextProofs IntProofs RwModel RwSpec RwProofs RwProofs2.
Import ListNotations.
Local Open Scope list_scope.
Local Open Scope Z_scope.
Ltac Zify.zify_post_hook ::= idtac.

(** unfolding equations of the reader *)
Lemma read_internal_S : forall gc limit f inp, read_internal gc limit (S f) inp =
    match skipws false inp with
    | [] => Eof
    | c :: t =>
      if c =? 40 then map_got (fun p => Some (close_list (fst p) (snd p))) (read_list_int gc limit f 41 [] None t)
      else if c =? 34 then map_got (fun s => Some (DStr s)) (read_string (S (List.length t)) SNormal [] t)
      else if c =? 35 then
        match t with
        | [] => Fail
        | c1 :: t1 =>
          if (c1 =? 116) || (c1 =? 84) then some_datum (read_sharp_word gc 116 t1)
          else if (c1 =? 102) || (c1 =? 70) then some_datum (read_sharp_word gc 102 t1)
          else if c1 =? 40 then
            match read_list_int gc limit f 41 [] None t1 with
            | Got p rest => match list_elements (close_list (fst p) (snd p)) with Some l => Got (Some (DVec l)) rest | None => Fail end
            | Fail => Fail | Outside => Outside | NoFuel => NoFuel | Eof => Eof
            end
          else if c1 =? 92 then some_datum (read_char gc t1)
          else if c1 =? 124 then match nested_comment 0 0 t1 with Some rest => Got None rest | None => Fail end
          else if c1 =? 42 then
            match t1 with
            | c2 :: t2 =>
              if c2 =? 42 then
                match t2 with
                | c3 :: t3 => if c3 =? 34 then map_got (fun s => Some (DBytes s)) (read_string (S (List.length t3)) SNormal [] t3) else Fail
                | [] => Fail
                end
              else if c2 =? 34 then map_got (fun s => Some (DBytes s)) (read_string (S (List.length t2)) SNormal [] t2)
              else Outside
            | [] => Outside
            end
          else if c1 =? 59 then
            match read_item gc limit f t1 with
            | Got _ rest => Got None rest
            | Eof => Got None []
            | Fail => Fail | Outside => Outside | NoFuel => NoFuel
            end
          else Outside
        end
      else if c =? 39 then finish_quoted (zs "quote") (read_item gc limit f t)
      else if c =? 96 then finish_quoted (zs "quasiquote") (read_item gc limit f t)
      else if c =? 58 then some_datum (read_keyword gc (S (List.length t)) t)
      else if c =? 44 then
        match t with
        | [] => Fail
        | c1 :: t1 => if c1 =? 64 then finish_quoted (zs "unquote-splicing") (read_item gc limit f t1)
                      else finish_quoted (zs "unquote") (read_item gc limit f t)
        end
      else if c =? 124 then map_got (fun s => Some (DSym s)) (read_escaped (S (List.length t)) [] t)
      else if c =? 91 then map_got (fun p => Some (close_list (fst p) (snd p))) (read_list_int gc limit f 93 [] None t)
      else if c =? 123 then map_got (fun p => Some (close_list (fst p) (snd p))) (read_list_int gc limit f 125 [] None t)
      else if (c =? 43) || (c =? 45) then some_datum (read_symbol_or_number gc limit c t)
      else if c =? 46 then
        match t with
        | c1 :: _ => if constituent gc false c1 then some_datum (read_symbol_or_number gc limit c t) else Fail
        | [] => Fail
        end
      else if (48 <=? c) && (c <=? 57) then some_datum (read_symbol_or_number gc limit c t)
      else if (c =? 41) || (c =? 93) || (c =? 125) then Fail
      else some_datum (read_symbol gc c t)
    end.
Proof. reflexivity. Qed.
Lemma read_item_S : forall gc limit f inp, read_item gc limit (S f) inp =
    match read_internal gc limit f inp with
    | Got (Some d) rest => Got d rest
    | Got None rest => read_item gc limit f rest
    | Fail => Fail | Outside => Outside | NoFuel => NoFuel | Eof => Eof
    end.
Proof. reflexivity. Qed.
Lemma read_list_int_S : forall gc limit f closer acc tail inp, read_list_int gc limit (S f) closer acc tail inp =
    match skipws false inp with
    | [] => Fail
    | c :: t =>
      if c =? closer then Got (acc, tail) t
      else if c =? 46 then
        match tail with
        | Some _ => Fail
        | None =>
          match t with
          | [] => Fail
          | c2 :: _ =>
            if c2 =? closer then Fail
            else if negb (constituent gc false c2) then
              match acc with
              | [] => Fail
              | _ => match read_item gc limit f t with
                     | Got d rest => read_list_int gc limit f closer acc (Some d) rest
                     | Eof => Fail
                     | Fail => Fail | Outside => Outside | NoFuel => NoFuel
                     end
              end
            else match read_symbol_or_number gc limit c t with
                 | Got d rest => read_list_int gc limit f closer (d :: acc) None rest
                 | Fail => Fail | Outside => Outside | NoFuel => NoFuel | Eof => Eof
                 end
          end
        end
      else match read_internal gc limit f (c :: t) with
           | Got None rest => read_list_int gc limit f closer acc tail rest
           | Got (Some d) rest => match tail with Some _ => Fail | None => read_list_int gc limit f closer (d :: acc) None rest end
           | Eof => Fail
           | Fail => Fail | Outside => Outside | NoFuel => NoFuel
           end
    end.
Proof. reflexivity. Qed.
(** the first character of a written datum *)
Definition starts (c : Z) : Prop := 0 <= c /\ (c <= 127 -> isspace c = false /\ c <> 59) /\ (128 <= c -> extra_ws false c = false) /\ c <> 41 /\ c <> 64.
Lemma skipws_starts : forall c t, starts c -> skipws false (c :: t) = c :: t.
Proof.
  intros c t (A & B & C & _). cbn [skipws]. destruct (Z.leb_spec c 127). { destruct (B H) as [-> N]. now rewrite (proj2 (Z.eqb_neq c 59)). } now rewrite C by lia.
Qed.
Ltac starts_ascii := split; [lia|]; split; [intros _; split; [reflexivity|lia]|]; split; [lia|]; split; lia.
(** a text that reads as a datum, in every place where a datum is read *)
Definition reads (gc : Z -> cat) (limit : Z) (t : list Z) (d : datum) : Prop :=
  (exists c t', t = c :: t' /\ starts c) /\
  (forall rest, delimited rest -> exists M, forall g, (M <= g)%nat -> read_internal gc limit g (t ++ rest) = Got (Some d) rest) /\
  (forall acc rest R n, delimited rest -> (forall g, (n <= g)%nat -> read_list_int gc limit g 41 (d :: acc) None rest = R) ->
     exists M, forall g, (M <= g)%nat -> read_list_int gc limit g 41 acc None (t ++ rest) = R).
Lemma reads_intro : forall gc limit c t d, starts c -> c <> 46 ->
  (forall rest, delimited rest -> exists M, forall g, (M <= g)%nat -> read_internal gc limit g ((c :: t) ++ rest) = Got (Some d) rest) -> reads gc limit (c :: t) d.
Proof.
  intros gc limit c t d Hs N H. split; [eauto|]. split; auto. intros acc rest R n D K. destruct (H rest D) as (M & HM). exists (S (max M n)). intros g Hg. destruct g as [|g]; [lia|]. rewrite read_list_int_S. rewrite <- app_comm_cons, skipws_starts by auto. rewrite (proj2 (Z.eqb_neq c 41)) by apply Hs. rewrite (proj2 (Z.eqb_neq c 46)) by auto.
  rewrite app_comm_cons. rewrite HM by lia. apply K. lia.
Qed.

Lemma delimited_word : forall gc h fold rest, delimited rest -> read_word gc fold h rest = ([], rest).
Proof. intros. pose proof (read_word_ok gc h [] rest fold eq_refl H) as R. exact R. Qed.
Lemma reads_nil : forall gc limit, reads gc limit (zs "()") DNil.
Proof.
  intros. change (zs "()") with [40; 41]. apply reads_intro; [starts_ascii|lia|]. intros rest D. exists 2%nat. intros g Hg. destruct g as [|[|g]]; [lia|lia|]. reflexivity.
Qed.
Lemma reads_true : forall gc limit, reads gc limit (zs "#t") DTrue.
Proof.
  intros. change (zs "#t") with [35; 116]. apply reads_intro; [starts_ascii|lia|]. intros rest D. exists 1%nat. intros g Hg. destruct g as [|g]; [lia|]. rewrite read_internal_S. cbn [app]. rewrite skipws_starts by starts_ascii.
  change (35 =? 40) with false. change (35 =? 34) with false. change (35 =? 35) with true. change ((116 =? 116) || (116 =? 84)) with true. cbv iota. unfold read_sharp_word, read_word_from. now rewrite (delimited_word gc false true rest D).
Qed.
Lemma reads_false : forall gc limit, reads gc limit (zs "#f") DFalse.
Proof.
  intros. change (zs "#f") with [35; 102]. apply reads_intro; [starts_ascii|lia|]. intros rest D. exists 1%nat. intros g Hg. destruct g as [|g]; [lia|]. rewrite read_internal_S. cbn [app]. rewrite skipws_starts by starts_ascii.
  change (35 =? 40) with false. change (35 =? 34) with false. change (35 =? 35) with true. change ((102 =? 116) || (102 =? 84)) with false. change ((102 =? 102) || (102 =? 70)) with true. cbv iota. unfold read_sharp_word, read_word_from. now rewrite (delimited_word gc false true rest D).
Qed.
Lemma reads_char : forall gc limit c, character c -> reads gc limit (write_char gc c) (DChar c).
Proof.
  intros gc limit c H. assert (E : exists t, write_char gc c = 35 :: 92 :: t) by (unfold write_char; eexists; reflexivity). destruct E as (t & E). rewrite E. apply reads_intro; [starts_ascii|lia|]. intros rest D. exists 1%nat. intros g Hg. destruct g as [|g]; [lia|].
  destruct (read_char_written gc c rest H D) as (t' & E' & R). rewrite E in E'. injection E' as <-. rewrite read_internal_S. cbn [app]. rewrite skipws_starts by starts_ascii. 
  change (35 =? 40) with false. change (35 =? 34) with false. change (35 =? 35) with true. change ((92 =? 116) || (92 =? 84)) with false. change ((92 =? 102) || (92 =? 70)) with false. change (92 =? 40) with false. change (92 =? 92) with true. cbv iota. now rewrite R.
Qed.
(** no delimiter is needed after a string *)
Lemma read_internal_string : forall gc limit s rest g, Forall character s -> (1 <= g)%nat -> read_internal gc limit g (write_string gc s ++ rest) = Got (Some (DStr s)) rest.
Proof.
  intros gc limit s rest g F Hg. destruct g as [|g]; [lia|]. unfold write_string. rewrite <- app_assoc. cbn [app]. rewrite read_internal_S. rewrite skipws_starts by starts_ascii. change (34 =? 40) with false. change (34 =? 34) with true. cbv iota.
  rewrite <- app_assoc. cbn [app]. rewrite read_string_written; auto. rewrite app_length. cbn [List.length]. lia.
Qed.
Lemma read_internal_bytes : forall gc limit s rest g, Forall byte s -> (1 <= g)%nat -> read_internal gc limit g (write_bytes gc s ++ rest) = Got (Some (DBytes s)) rest.
Proof.
  intros gc limit s rest g F Hg. destruct g as [|g]; [lia|]. unfold write_bytes. change (zs "#**") with [35; 42; 42]. rewrite <- !app_assoc. cbn [app]. rewrite read_internal_S. rewrite skipws_starts by starts_ascii.
  change (35 =? 40) with false. change (35 =? 34) with false. change (35 =? 35) with true. change ((42 =? 116) || (42 =? 84)) with false. change ((42 =? 102) || (42 =? 70)) with false. change (42 =? 40) with false. change (42 =? 92) with false. change (42 =? 124) with false. change (42 =? 42) with true. change (34 =? 34) with true. cbv iota.
  rewrite read_string_written; auto. { eapply Forall_impl; [|exact F]. unfold byte, character. intros; lia. } rewrite app_length. cbn [List.length]. lia.
Qed.
Lemma reads_string : forall gc limit s, Forall character s -> reads gc limit (write_string gc s) (DStr s).
Proof. intros gc limit s F. unfold write_string at 1. cbn [app]. apply reads_intro; [starts_ascii|lia|]. intros rest D. exists 1%nat. intros g Hg. apply (read_internal_string gc limit s rest g); auto. Qed.
Lemma reads_bytes : forall gc limit s, Forall byte s -> reads gc limit (write_bytes gc s) (DBytes s).
Proof. intros gc limit s F. unfold write_bytes at 1. change (zs "#**") with [35; 42; 42]. cbn [app]. apply reads_intro; [starts_ascii|lia|]. intros rest D. exists 1%nat. intros g Hg. apply (read_internal_bytes gc limit s rest g); auto. Qed.

(** ** integers *)
Lemma digit_constituent : forall gc h c, 48 <= c <= 57 -> constituent gc h c = true.
Proof. intros gc h c H. apply ascii_constituent; [lia|]. pose (P := fun c => negb ((48 <=? c) && (c <=? 57)) || Z.testbit (nth (Z.to_nat c) word_bits 0) 0). assert (K : P c = true) by (apply ascii_all; [vm_compute; reflexivity|lia]). unfold P in K. rewrite (proj2 (Z.leb_le 48 c)), (proj2 (Z.leb_le c 57)) in K by lia. exact K. Qed.
Lemma is_digit10 : forall c, is_digit 10 c -> 48 <= c <= 57.
Proof. intros c (d & H & L). unfold digit_of in H. destruct (Z.leb_spec 48 c), (Z.leb_spec c 57), (Z.leb_spec 97 c), (Z.leb_spec c 122), (Z.leb_spec 65 c), (Z.leb_spec c 90); cbn [andb] in H; try discriminate; injection H as <-; lia. Qed.
Lemma reads_int : forall gc limit n, canonical n -> Z.abs (int_of n) < RLIM -> 0 <= limit <= 2 ^ 63 / 10 + 2048 -> exists t, number_to_string n 10 false false = Ok t /\ reads gc limit t (DInt n).
Proof.
  intros gc limit n C B Hl. destruct (number_to_string_ok n 10 false false C ltac:(lia)) as (ds & E & Hn & Hv & _). exists (sign_of n false ++ ds). split; auto.
  destruct (read_number_ok (sign_of n false) ds 10 limit ltac:(lia) Hl Hn) as (n' & En & Cn & Vn). { now rewrite Hv. }
  { unfold sign_of. destruct (int_of n <? 0); [right|left; reflexivity]. split; auto. destruct Hn as [_ F]. split; intros ->; inversion F as [|? ? K _]; subst; apply is_digit10 in K; lia. }
  assert (n' = n). { apply canonical_unique; auto. rewrite Vn, Hv. unfold sign_of. destruct (Z.ltb_spec (int_of n) 0); lia. } subst n'.
  destruct Hn as [Nn F]. destruct ds as [|d ds]; [contradiction|]. assert (FD : Forall (fun c => 48 <= c <= 57) (d :: ds)) by (eapply Forall_impl; [|exact F]; intros; now apply is_digit10). inversion FD as [|? ? Hd Fds]; subst.
  assert (FC : forallb (constituent gc true) ds = true) by (apply forallb_forall; intros x I; rewrite Forall_forall in Fds; apply digit_constituent; auto).
  assert (NX : forall l, Forall (fun c => 48 <= c <= 57) l -> existsb (fun x => 128 <=? x) l = false). { intros l Fl. apply not_true_iff_false. intros T. apply existsb_exists in T. destruct T as (x & I & Hx). rewrite Forall_forall in Fl. apply Fl in I. apply Z.leb_le in Hx. lia. }
  assert (SN : string_to_number limit (sign_of n false ++ d :: ds) = Ok (SInt n)).
  { unfold string_to_number. assert (X : existsb (fun x => 128 <=? x) (sign_of n false ++ d :: ds) = false). { unfold sign_of. destruct (int_of n <? 0); [cbn [app existsb]; change (128 <=? 45) with false; cbn [orb]|cbn [app]]; apply (NX (d :: ds)); auto. }
    rewrite X. assert (AS : after_sign (sign_of n false ++ d :: ds) = d :: ds). { unfold sign_of. destruct (int_of n <? 0); [reflexivity|]. unfold after_sign. cbn [app]. rewrite (proj2 (Z.eqb_neq d 43)), (proj2 (Z.eqb_neq d 45)) by lia. reflexivity. }
    rewrite AS. rewrite (proj2 (Z.eqb_neq d 46)) by lia. rewrite En. reflexivity. }
  assert (RS : forall c t rest, sign_of n false ++ d :: ds = c :: t -> delimited rest -> read_symbol_or_number gc limit c (t ++ rest) = Got (DInt n) rest).
  { intros c t rest Et D. unfold read_symbol_or_number, read_word_from. assert (FT : forallb (constituent gc true) t = true).
    { unfold sign_of in Et. destruct (int_of n <? 0); cbn [app] in Et; injection Et as <- <-; auto. cbn [forallb]. rewrite FC. rewrite digit_constituent by lia. reflexivity. }
    rewrite read_word_nofold by auto. cbn [andb]. rewrite <- Et, SN. reflexivity. }
  assert (SG : exists c t, sign_of n false ++ d :: ds = c :: t /\ (c = 45 \/ 48 <= c <= 57)).
  { unfold sign_of. destruct (int_of n <? 0); cbn [app]; eauto. } destruct SG as (c & t & Et & Hc). rewrite Et.
  assert (ST : starts c). { split; [lia|]. split; [intros _; split; [unfold isspace; destruct Hc as [->|Hc]; [reflexivity|rewrite (proj2 (Z.leb_gt c 13)), (proj2 (Z.eqb_neq c 32)) by lia; now rewrite andb_false_r]|lia]|]. split; [lia|]. split; lia. }
  apply reads_intro; auto; [lia|]. intros rest D. exists 1%nat. intros g Hg. destruct g as [|g]; [lia|]. rewrite read_internal_S, <- app_comm_cons, skipws_starts by auto.
  destruct Hc as [->|Hc].
  - repeat match goal with |- context [45 =? ?k] => first [change (45 =? k) with false|change (45 =? k) with true] end. cbn [orb]. cbv iota. rewrite (RS 45 t rest Et D). reflexivity.
  - repeat match goal with |- context [c =? ?k] => rewrite (proj2 (Z.eqb_neq c k)) by lia end. cbn [orb]. cbv iota. rewrite (proj2 (Z.leb_le 48 c)), (proj2 (Z.leb_le c 57)) by lia. cbn [andb]. rewrite (RS c t rest Et D). reflexivity.
Qed.

(** ** symbols *)
Lemma initial_dispatch : forall gc c, unicode_spaces gc -> character c -> lexer_category gc c INITIAL = true ->
  starts c /\ ~ (48 <= c <= 57) /\ ~ In c [40; 34; 35; 39; 96; 44; 124; 91; 123; 43; 45; 46; 41; 93; 125].
Proof.
  intros gc c U H E. unfold character in H. destruct (Z.ltb_spec c 128).
  - unfold lexer_category in E. rewrite (proj2 (Z.ltb_lt c 128)) in E by lia. cbn [lex_bit] in E.
    pose (P := fun c => negb (Z.testbit (nth (Z.to_nat c) lex_bits 0) 0) || (negb (isspace c) && negb (c =? 59) && negb (c =? 41) && negb (c =? 64) && negb ((48 <=? c) && (c <=? 57)) && negb (existsb (Z.eqb c) [40; 34; 35; 39; 96; 44; 124; 91; 123; 43; 45; 46; 41; 93; 125]))).
    assert (K : P c = true) by (apply ascii_all; [vm_compute; reflexivity|lia]). unfold P in K. rewrite E in K. cbn [negb orb] in K. rewrite !andb_true_iff in K. destruct K as (((((K1 & K2) & K3) & K4) & K5) & K6). apply negb_true_iff in K1, K2, K3, K4, K5, K6. apply Z.eqb_neq in K2, K3, K4.
    split; [|split]. + split; [lia|]. split; [auto|]. split; [lia|]. split; auto. + intros R. rewrite (proj2 (Z.leb_le 48 c)), (proj2 (Z.leb_le c 57)) in K5 by lia. discriminate. + intros I. apply not_true_iff_false in K6. apply K6. apply existsb_exists. exists c. split; auto. apply Z.eqb_refl.
  - split; [|split; [lia|cbn [In]; intros I; decompose [or] I; lia]]. split; [lia|]. split; [lia|]. split; [|split; lia]. intros _. destruct (extra_ws false c) eqn:W; auto. exfalso.
    assert (Z3 : gc c = Zs \/ gc c = Zl \/ gc c = Zp). { unfold extra_ws in W. destruct U as (U1 & U2 & U3). destruct (Z.leb_spec c 12288); [cbn [andb] in W|discriminate]. destruct (Z.ltb_spec c 8192).
      - left. apply U1. apply orb_true_iff in W. destruct W as [W|W]; apply Z.eqb_eq in W; auto.
      - destruct (Z.leb_spec c 8202). { left. apply U1. right. right. left. lia. } cbn [negb andb] in W. rewrite !orb_true_iff in W. destruct W as [[[W|W]|W]|[W|W]]; apply Z.eqb_eq in W; subst c; auto 10. }
    assert (N3 : c <> 8204 /\ c <> 8205). { split; intros ->; vm_compute in W; discriminate. } destruct N3 as [N1 N2].
    unfold lexer_category in E. rewrite (proj2 (Z.ltb_ge c 128)) in E by lia. rewrite (proj2 (Z.eqb_neq c 8204)), (proj2 (Z.eqb_neq c 8205)) in E by auto. cbn [orb] in E. destruct Z3 as [K|[K|K]]; rewrite K in E; discriminate.
Qed.
Lemma reads_symbol : forall gc limit name, unicode_spaces gc -> Forall character name -> plain gc name -> reads gc limit (write_symbol gc name) (DSym name).
Proof.
  intros gc limit name U F P.
  assert (BARS : reads gc limit (124 :: flat_map symbol_putc name ++ [124]) (DSym name)).
  { apply reads_intro; [starts_ascii|lia|]. intros rest D. exists 1%nat. intros g Hg. destruct g as [|g]; [lia|]. rewrite read_internal_S. cbn [app]. rewrite skipws_starts by starts_ascii. repeat match goal with |- context [124 =? ?k] => first [change (124 =? k) with false|change (124 =? k) with true] end. cbv iota. rewrite <- app_assoc. cbn [app]. rewrite read_escaped_written; auto. rewrite app_length. cbn [List.length]. lia. }
  unfold write_symbol. destruct name as [|c p]; [exact BARS|]. destruct (escape_required gc (c :: p)) eqn:E; [exact BARS|]. clear BARS.
  destruct (bare_constituents gc true _ F P E) as [FC NH]. destruct (bare_constituents gc false _ F P E) as [FC' _]. pose proof (no_hash _ NH) as EH. cbn [forallb] in FC, FC'. apply andb_true_iff in FC, FC'. destruct FC as [FC1 FC]. destruct FC' as [FC1' FC'].
  assert (SP : c = 46 \/ c = 43 \/ c = 45 -> forall rest, delimited rest -> read_symbol_or_number gc limit c (p ++ rest) = Got (DSym (c :: p)) rest).
  { intros Hc rest D. unfold read_symbol_or_number, read_word_from. rewrite read_word_nofold by auto. cbn [andb]. rewrite (not_number gc limit (c :: p) F E). { unfold intern_valid. now rewrite EH. } cbn [hd In]. destruct Hc as [->|[->| ->]]; auto. }
  destruct (Z.eq_dec c 46) as [->|N46].
  - (* starts with a dot *)
    assert (NE : exists p0 p', p = p0 :: p') by (destruct p; [discriminate|eauto]). destruct NE as (p0 & p' & ->). cbn [forallb] in FC'. apply andb_true_iff in FC'. destruct FC' as [FP0 _].
    assert (ST : starts 46) by starts_ascii. split; [eauto|]. split.
    + intros rest D. exists 1%nat. intros g Hg. destruct g as [|g]; [lia|]. rewrite read_internal_S, <- app_comm_cons, skipws_starts by auto. repeat match goal with |- context [46 =? ?k] => first [change (46 =? k) with false|change (46 =? k) with true] end. cbn [orb]. cbv iota. cbn [app]. rewrite FP0. change (p0 :: p' ++ rest) with ((p0 :: p') ++ rest). rewrite SP by auto. reflexivity.
    + intros acc rest R n D K. exists (S n). intros g Hg. destruct g as [|g]; [lia|]. rewrite read_list_int_S, <- app_comm_cons, skipws_starts by auto. change (46 =? 41) with false. change (46 =? 46) with true. cbv iota. cbn [app].
      assert (N41 : p0 <> 41). { intros ->. destruct (constituent gc false 41) eqn:X; [vm_compute in X|]; discriminate. } rewrite (proj2 (Z.eqb_neq p0 41)) by auto. rewrite FP0. cbn [negb]. cbv iota. change (p0 :: p' ++ rest) with ((p0 :: p') ++ rest). rewrite SP by auto. apply K. lia.
  - assert (G : starts c /\ forall rest, delimited rest -> exists M, forall g, (M <= g)%nat -> read_internal gc limit g ((c :: p) ++ rest) = Got (Some (DSym (c :: p))) rest).
    { destruct ((c =? 43) || (c =? 45)) eqn:SGN.
      - assert (C43 : c = 43 \/ c = 45) by lia. assert (ST : starts c) by (destruct C43; subst c; starts_ascii). split; auto. intros rest D. exists 1%nat. intros g Hg. destruct g as [|g]; [lia|]. rewrite read_internal_S, <- app_comm_cons, skipws_starts by auto.
        repeat match goal with |- context [c =? ?k] => lazymatch k with 43 => fail | 45 => fail | _ => rewrite (proj2 (Z.eqb_neq c k)) by lia end end. rewrite SGN. rewrite SP by auto. reflexivity.
      - cbn [escape_required] in E. rewrite SGN in E. rewrite (proj2 (Z.eqb_neq c 46)) in E by auto. destruct (lexer_category gc c INITIAL) eqn:EL; [|discriminate]. inversion F as [|? ? Hc Fp]; subst. destruct (initial_dispatch gc c U Hc EL) as (ST & ND & NI). cbn [In] in NI. split; auto. intros rest D. exists 1%nat. intros g Hg. destruct g as [|g]; [lia|].
        rewrite read_internal_S, <- app_comm_cons, skipws_starts by auto.
        assert (NK : forall k, In k [40; 34; 35; 39; 96; 44; 124; 91; 123; 43; 45; 46; 41; 93; 125] -> (c =? k) = false). { intros k I. apply Z.eqb_neq. intros ->. apply NI. exact I. }
        rewrite (NK 40), (NK 34), (NK 35), (NK 39), (NK 96) by (cbn; auto 20). destruct (Z.eqb_spec c 58) as [->|N58].
        + unfold read_keyword. assert (NB : match p ++ rest with c :: _ => c =? 124 | [] => false end = false -> some_datum (if match p ++ rest with c :: _ => c =? 124 | [] => false end then match read_escaped (S (List.length (p ++ rest))) [] (tl (p ++ rest)) with Got s r => Got (DSym (58 :: s)) r | Eof => Eof | NoFuel => NoFuel | Outside => Outside | Fail => Fail end else let (w, r) := read_word gc false false (p ++ rest) in Got (DSym (58 :: w)) r) = Got (Some (DSym (58 :: p))) rest).
          { intros ->. rewrite read_word_nofold by auto. reflexivity. }
          destruct p as [|p0 p'].
          * cbn [app] in *. destruct rest as [|r0 rest']; [apply NB; reflexivity|]. apply NB. apply Z.eqb_neq. intros ->. cbn in D. decompose [or] D; lia.
          * apply NB. cbn [app]. apply Z.eqb_neq. intros ->. cbn [forallb] in FC'. apply andb_true_iff in FC'. destruct FC' as [X _]. vm_compute in X. discriminate.
        + rewrite (NK 44), (NK 124), (NK 91), (NK 123), (NK 43), (NK 45), (NK 46), (NK 41), (NK 93), (NK 125) by (cbn; auto 20). cbn [orb]. assert (DG : (48 <=? c) && (c <=? 57) = false) by (apply not_true_iff_false; rewrite andb_true_iff, !Z.leb_le; lia). rewrite DG. unfold read_symbol, read_word_from. rewrite read_word_nofold by auto. cbn [andb]. unfold intern_valid. now rewrite EH. }
    destruct G as [ST G]. apply reads_intro; auto.
Qed.
