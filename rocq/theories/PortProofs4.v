(** Input ports: lines, strings, positions; whole sessions *)
From Coq Require Import ZArith List Bool Lia.
From Verif Require Import Outcome Utf8Model Utf8Spec Utf8Proofs StringSpec StringProofs SearchProofs2 PortModel PortSpec PortProofs PortProofs2 PortProofs3.
Import ListNotations.
Local Open Scope nat_scope.
Ltac Zify.zify_post_hook ::= idtac.

Section Steps.
Context (all : list Z) (Hall : Forall is_byte all) (k : pkind) (Hk : kind_ok k).
Notation inv := (inv all k).
Notation rest := (rest all).

Lemma rest_eqb x y : rest x = rest y \/ s_pos x <> s_pos y.
Proof. destruct (Nat.eq_dec (s_pos x) (s_pos y)) as [E|E]; [left; unfold PortSpec.rest; now rewrite E|now right]. Qed.
Lemma getb_low p s b r : inv p s -> rest s = b :: r -> exists p' q, getb p = Ok (p', b) /\ inv p' (mkS (s_pos s + 1) q false) /\ ((b < 128)%Z -> q = 0).
Proof.
  intros I Hr. pose proof (getb_ok all Hall k Hk p s I) as X. rewrite Hr in X. destruct X as (p' & E & I'). exists p', (s_pend s - 1). split; auto. split; auto.
  intros Hb. pose proof (low_alone all k p s b r I Hr Hb). lia.
Qed.
Definition line_pend (eol r : list Z) : nat := match eol, r with [_], _ :: _ => if (hd 0 eol =? 13)%Z then 1 else 0 | _, _ => 0 end.
Lemma readline_loop_S f p b1 ds : readline_loop (S f) p b1 ds =
    if (b1 =? C_EOF)%Z then Ok (p, ds)
    else if (b1 =? 10)%Z then Ok (p, ds)
    else if (b1 =? 13)%Z then
      do x <- getb p;
      if (snd x =? C_EOF)%Z || (snd x =? 10)%Z then Ok (fst x, ds)
      else do p1 <- ungetb (fst x) (snd x); Ok (p1, ds)
    else do x <- getb p; readline_loop f (fst x) (snd x) (ds ++ [b1]).
Proof. reflexivity. Qed.
Lemma readline_loop_ok : forall fuel p s q b1 tl ds, rest s = b1 :: tl -> inv p (mkS (s_pos s + 1) q false) -> ((b1 < 128)%Z -> q = 0) -> length tl + 2 <= fuel ->
  exists p' l eol r, readline_loop fuel p b1 ds = Ok (p', ds ++ l) /\ rest s = l ++ eol ++ r /\ plain_line l /\ eol_ok l eol r
    /\ inv p' (mkS (s_pos s + length l + length eol) (line_pend eol r) false).
Proof.
  induction fuel as [|f IH]; intros p s q b1 tl ds Hr I Hq Hf; [lia|]. rewrite readline_loop_S. destruct (eof_byte all Hall s b1 tl Hr) as (-> & By).
  destruct (Z.eqb_spec b1 10) as [->|N10].
  { exists p, [], [10%Z], tl. cbn [app length]. rewrite app_nil_r, Nat.add_0_r. split; auto. split; auto. split; [constructor|]. split; [unfold eol_ok; auto|]. rewrite Hq in I by lia. destruct tl; exact I. }
  assert (Hr1 : rest (mkS (s_pos s + 1) q false) = tl) by (rewrite rest_add, Hr; reflexivity).
  destruct (Z.eqb_spec b1 13) as [->|N13].
  - rewrite Hq in * by lia. pose proof (getb_ok all Hall k Hk _ _ I) as X. rewrite Hr1 in X. destruct tl as [|b2 tl'].
    + destruct X as (p' & -> & I'). cbn [bind fst snd]. rewrite Z.eqb_refl. cbn [orb]. exists p', [], [13%Z], []. cbn [app length]. rewrite app_nil_r, Nat.add_0_r. split; auto. split; auto. split; [constructor|]. split; [|exact I'].
      unfold eol_ok. right; right; right. split; auto. intros r'. discriminate.
    + destruct X as (p' & -> & I'). cbn [bind fst snd]. destruct (eof_byte all Hall _ b2 tl' Hr1) as (-> & By2). cbn [orb]. cbn [s_pos s_pend Nat.sub] in I'. destruct (Z.eqb_spec b2 10) as [->|M10].
      * exists p', [], [13%Z; 10%Z], tl'. cbn [app length]. rewrite app_nil_r, Nat.add_0_r. split; auto. split; auto. split; [constructor|]. split; [unfold eol_ok; auto|]. cbn [line_pend]. replace (s_pos s + 2) with (s_pos s + 1 + 1) by lia. exact I'.
      * destruct (bare_state all k _ _ I') as (U & Sc); auto. unfold ungetb. rewrite U, Sc, Z.eqb_refl. cbn [negb orb length MAX_BYTES Nat.leb app]. rewrite put_scr_ok by (cbn; lia). cbn [bind].
        exists (set_scr p' [b2]), [], [13%Z], (b2 :: tl'). cbn [app length]. rewrite app_nil_r, Nat.add_0_r. split; auto. split; auto. split; [constructor|].
        split. { unfold eol_ok. right; right; right. split; auto. intros r' E. injection E as E _. contradiction. }
        destruct (unget_inv all Hall k Hk p' (mkS (s_pos s + 1) 0 false) b2 tl' false I' Hr1) as [Y|Y]; [exact Y|discriminate].
  - pose proof getb_low as GL. destruct tl as [|b2 tl'].
    + pose proof (getb_ok all Hall k Hk _ _ I) as X. rewrite Hr1 in X. destruct X as (p' & -> & I'). cbn [bind fst snd]. destruct f as [|f]; [cbn in Hf; lia|]. rewrite readline_loop_S, Z.eqb_refl.
      exists p', [b1], [], []. cbn [app length]. split; auto. split; auto. split; [constructor; auto; constructor|]. split; [unfold eol_ok; left; repeat split; auto; discriminate|]. rewrite Nat.add_0_r. exact I'.
    + destruct (GL p _ b2 tl' I Hr1) as (p' & q' & -> & I' & Hq'). cbn [bind fst snd].
      destruct (IH p' (mkS (s_pos s + 1) q false) q' b2 tl' (ds ++ [b1]) Hr1 I' Hq') as (p2 & l & eol & r & E & R & Pl & Eo & I2); [cbn [length] in Hf; lia|].
      exists p2, (b1 :: l), eol, r. rewrite E, <- app_assoc. cbn [app]. split; auto. split; [rewrite Hr; f_equal; now rewrite <- R, Hr1|]. split; [constructor; auto|].
      split. { destruct Eo as [(E1 & E2 & _)|Eo]; [left; repeat split; auto; discriminate|right; auto]. }
      cbn [s_pos length] in *. replace (s_pos s + S (length l) + length eol) with (s_pos s + 1 + length l + length eol) by lia. exact I2.
Qed.
Lemma readline_ok p s : inv p s -> rest s <> [] -> exists p' l eol r, readline p = Ok (p', Some l) /\ rest s = l ++ eol ++ r /\ plain_line l /\ eol_ok l eol r
    /\ inv p' (mkS (s_pos s + length l + length eol) (line_pend eol r) false).
Proof.
  intros I Hr. destruct (rest s) as [|b r] eqn:Er; [contradiction|]. destruct (getb_low p s b r I Er) as (p1 & q & E & I1 & Hq). unfold readline. rewrite E. cbn [bind fst snd]. destruct (eof_byte all Hall s b r Er) as (-> & _).
  rewrite <- Er. destruct (readline_loop_ok (length (p_all p) + 8) p1 s q b r [] Er I1 Hq) as (p2 & l & eol & r' & E2 & X).
  { rewrite (i_all _ _ _ _ I). assert (length (rest s) = S (length r)) by (now rewrite Er). unfold PortSpec.rest in H. rewrite skipn_length in H. lia. }
  exists p2, l, eol, r'. rewrite E2. auto.
Qed.
Lemma readline_eof p s : inv p s -> rest s = [] -> exists p', readline p = Ok (p', None) /\ inv p' (mkS (s_pos s) 0 false).
Proof. intros I Hr. pose proof (getb_ok all Hall k Hk p s I) as X. rewrite Hr in X. destruct X as (p' & E & I'). exists p'. unfold readline. rewrite E. auto. Qed.

(** ** Strings *)
Lemma char_bytes_put c bs : char_bytes c bs -> valid_char c /\ bs = char_put c.
Proof. intros (V & E). split; auto. eapply encodes_unique; eauto. now apply putc_encodes. Qed.
Lemma readstring_ok : forall cs n p s bs r o, inv p s -> encodes_all cs bs -> rest s = bs ++ r -> cs <> [] \/ o <> [] -> length cs = n \/ (length cs < n /\ r = []) ->
  exists p' s', readstring_loop n p o = Ok (p', Some (o ++ cs)) /\ inv p' s' /\ (cs <> [] \/ length cs < n -> s' = mkS (s_pos s + length bs) 0 false) /\ (n = 0 -> s' = s).
Proof.
  induction cs as [|c cs IH]; intros n p s bs r o I He Hr Hn Hl.
  - inversion He; subst. destruct Hn as [Hn|Hn]; [contradiction|]. rewrite app_nil_r. destruct n as [|n].
    + exists p, s. split; [reflexivity|]. split; [exact I|]. split; [|auto]. intros [X|X]; [contradiction|cbn in X; lia].
    + destruct Hl as [Hl|(_ & ->)]; [discriminate|]. cbn [readstring_loop]. destruct (getc_eof all Hall k Hk p s I Hr) as (p' & -> & I'). cbn [bind fst snd]. rewrite Z.eqb_refl. exists p'. eexists. split; [destruct o; [contradiction|reflexivity]|]. split; [eassumption|]. split; [|discriminate]. intros _. cbn [length]. now rewrite Nat.add_0_r.
  - inversion He as [|c0 cs0 bs0 bss V E He']; subst. destruct n as [|n]; [cbn in Hl; lia|]. cbn [readstring_loop]. destruct (char_bytes_put c bs0) as (_ & ->); [split; auto|]. rewrite <- app_assoc in Hr.
    destruct (getc_ok all Hall k Hk p s c _ I V Hr) as (p1 & -> & I1). cbn [bind fst snd]. destruct (valid_ung _ V) as (_ & ->).
    destruct (IH n p1 _ bss r (o ++ [c]) I1 He') as (p2 & s2 & E2 & I2 & S2 & S2').
    + rewrite rest_add, Hr, skipn_app, skipn_all, Nat.sub_diag. reflexivity.
    + right. destruct o; discriminate.
    + cbn [length] in Hl. destruct Hl as [Hl|(Hl & Hl')]; [left; lia|right; split; auto; lia].
    + exists p2, s2. rewrite E2, <- app_assoc. split; auto. split; auto. split; [|discriminate]. intros _. cbn [s_pos] in *. rewrite app_length, Nat.add_assoc.
      destruct cs as [|c2 cs]; [|apply S2; left; discriminate]. inversion He'; subst. destruct Hl as [Hl|(Hl & Hl')]; cbn [length] in Hl.
      * rewrite S2' by lia. cbn [length]. now rewrite Nat.add_0_r.
      * apply S2. right. cbn. lia.
Qed.
Lemma readstring_eof n p s : inv p s -> rest s = [] -> exists p', readstring_loop (S n) p [] = Ok (p', None) /\ inv p' (mkS (s_pos s) 0 false).
Proof. intros I Hr. cbn [readstring_loop]. destruct (getc_eof all Hall k Hk p s I Hr) as (p' & -> & I'). cbn [bind fst snd]. rewrite Z.eqb_refl. eauto. Qed.

(** ** Positions *)
Lemma pending_pushed p s : inv p s -> s_eofp s = false -> pending_bytes p = Z.of_nat (length (pushed p)).
Proof.
  intros I He. pose proof I as [A B C D E F G]. unfold pending_bytes. destruct D as [(U & _ & De)|[(U & _ & Av & De)|(V & Sc & De)]]; [|congruence|].
  - rewrite (pushed_scr p U), U, Z.eqb_refl. lia.
  - rewrite (pushed_ung p _ eq_refl V), Sc. destruct (valid_ung _ V) as (-> & _). pose proof (put_len _ V) as (_ & <-). cbn [length]. lia.
Qed.
Lemma tell_ok p s : inv p s -> s_eofp s = false -> tell p = Z.of_nat (s_pos s).
Proof.
  intros I He. unfold tell. rewrite (pending_pushed p s I He). pose proof I as [A B C D E F G]. unfold spos in G.
  assert (X : (match p_kind p with KFile _ _ => Z.of_nat (p_pos p) - Z.of_nat (length (p_buf p)) | KStr => Z.of_nat (p_pos p) end)%Z = (Z.of_nat (p_pos p) - Z.of_nat (length (p_buf p)))%Z).
  { destruct (p_kind p) eqn:Ek; auto. unfold buf_ok in C. rewrite Ek in C. rewrite C. cbn [length]. lia. }
  rewrite X. destruct (Z.ltb_spec 0 (Z.of_nat (length (pushed p)))); lia.
Qed.
Definition is_file (k : pkind) : bool := match k with KFile _ _ => true | KStr => false end.
Lemma seeked p t : p_kind p = k -> p_all p = all -> (0 <= t)%Z -> inv (set_buf (set_ung (set_scr p []) CH_INVALID) (Z.to_nat t) [] (p_tick p)) (mkS (Z.to_nat t) 0 false).
Proof.
  intros A B Ht. eapply inv_bare with (e := false); cbn [set_buf set_ung set_scr p_kind p_all p_ung p_scr s_pend s_eofp s_pos]; auto; try apply frag_nil.
  - unfold buf_ok. cbn [set_buf set_ung set_scr p_kind p_buf length]. destruct (p_kind p); auto. lia.
  - unfold PortSpec.rest, avail. cbn [set_buf set_ung set_scr p_kind p_buf p_pos p_all s_pos app]. now rewrite B.
Qed.
Lemma set_position_ok p s off w : inv p s -> (w = SeekCur -> s_eofp s = false) ->
  if can_seek all (is_file k) (target all s off w)
  then exists p', set_position p off w = (p', Some (target all s off w)) /\ inv p' (mkS (Z.to_nat (target all s off w)) 0 false)
  else s_pend s = 0 -> exists p', set_position p off w = (p', None) /\ inv p' (mkS (s_pos s) 0 false).
Proof.
  intros I He. pose proof I as [A B C D E F G]. unfold set_position. rewrite B.
  assert (Hc : match w with SeekCur => (off - pending_bytes p)%Z | _ => off end = match w with SeekCur => (off - Z.of_nat (length (pushed p)))%Z | _ => off end).
  { destruct w; auto. now rewrite (pending_pushed p s I (He eq_refl)). }
  rewrite Hc. clear Hc.
  assert (Lose : s_pend s = 0 -> inv (set_ung (set_scr p []) CH_INVALID) (mkS (s_pos s) 0 false)).
  { intros Hp. rewrite Hp in E. assert (Pu : pushed p = []) by (destruct (pushed p); [auto|discriminate]). rewrite Pu in *. eapply inv_bare with (e := false); cbn [set_ung set_scr p_kind p_all p_ung p_scr s_pend s_eofp s_pos]; auto; try apply frag_nil. }
  unfold can_seek. unfold spos in G. unfold buf_ok in C. destruct (p_kind p) as [m size|] eqn:Ek.
  - assert (is_file k = true) as -> by (now rewrite <- A).
    match goal with |- context [Z.ltb ?t 0] => set (t0 := t) end. assert (Et : t0 = target all s off w) by (unfold t0, target; destruct w; lia). rewrite Et. cbn [orb]. rewrite andb_true_r.
    destruct (Z.leb_spec 0 (target all s off w)) as [L|L].
    + assert (target all s off w <? 0 = false)%Z as -> by (apply Z.ltb_ge; lia). eexists. split; [reflexivity|]. refine (seeked p _ _ _ _); auto; congruence.
    + assert (target all s off w <? 0 = true)%Z as -> by (apply Z.ltb_lt; lia). intros Hp. eexists. split; [reflexivity|]. auto.
  - assert (is_file k = false) as -> by (now rewrite <- A). rewrite C in G. cbn [length] in G.
    match goal with |- context [Z.ltb ?t 0] => set (t0 := t) end. assert (Et : t0 = target all s off w) by (unfold t0, target; destruct w; lia). rewrite Et. cbn [orb].
    destruct (Z.leb_spec 0 (target all s off w)) as [L|L].
    + assert (target all s off w <? 0 = false)%Z as -> by (apply Z.ltb_ge; lia). cbn [andb orb]. rewrite (Z.ltb_antisym (target all s off w)). destruct (target all s off w <=? Z.of_nat (length all))%Z; cbn [negb].
      * eexists. split; [reflexivity|]. refine (seeked p _ _ _ _); auto; congruence.
      * intros Hp. eexists. split; [reflexivity|]. auto.
    + assert (target all s off w <? 0 = true)%Z as -> by (apply Z.ltb_lt; lia). cbn [andb orb]. intros Hp. eexists. split; [reflexivity|]. auto.
Qed.

(** ** Every procedure *)
Lemma byte_ans_byte b : is_byte b -> byte_ans b = AByte b.
Proof. intros H. unfold byte_ans. unfold is_byte in H. assert (b <? 0 = false)%Z as -> by (apply Z.ltb_ge; lia). auto. Qed.
Lemma ch_ans_char c : valid_char c -> ch_ans c = AChar c.
Proof. intros V. unfold ch_ans. destruct (valid_ung _ V) as (_ & ->). auto. Qed.
Notation step := (spec_step all (exact_kind k) (is_file k)).
Lemma put_bytes c : valid_char c -> char_bytes c (char_put c).
Proof. intros V. split; auto. now apply putc_encodes. Qed.
Lemma in_step_ok p s o : inv p s -> allowed all (is_file k) s o -> exists p' a s', in_step p o = Ok (p', a) /\ step s o a s' /\ inv p' s'.
Proof.
  intros I Al. destruct o as [| | | | |n|n| |off w]; cbn [in_step allowed] in *.
  - destruct Al as [Hr|(c & bs & r & Hc & Hr)].
    + destruct (getc_eof all Hall k Hk p s I Hr) as (p' & -> & I'). cbn [bind fst snd]. exists p', AEof. eexists. split; [reflexivity|]. split; [|eassumption]. now constructor.
    + apply char_bytes_put in Hc as (V & ->). destruct (getc_ok all Hall k Hk p s c r I V Hr) as (p' & -> & I'). cbn [bind fst snd]. exists p', (AChar c). eexists. rewrite ch_ans_char by auto. split; [reflexivity|]. split; [|eassumption]. econstructor; eauto. now apply put_bytes.
  - destruct Al as [Hr|(c & bs & r & Hc & Hr)].
    + destruct (peekc_eof all Hall k Hk p s I Hr) as (p' & -> & I'). cbn [bind fst snd]. exists p', AEof. eexists. split; [reflexivity|]. split; [|eassumption]. now constructor.
    + apply char_bytes_put in Hc as (V & ->). destruct (peekc_ok all Hall k Hk p s c r I V Hr) as (p' & -> & I'). cbn [bind fst snd]. exists p', (AChar c). eexists. rewrite ch_ans_char by auto. split; [reflexivity|]. split; [|eassumption]. econstructor; eauto. now apply put_bytes.
  - pose proof (getb_ok all Hall k Hk p s I) as X. destruct (rest s) as [|b r] eqn:Hr; destruct X as (p' & -> & I'); cbn [bind fst snd].
    + exists p', AEof. eexists. split; [reflexivity|]. split; [|eassumption]. now constructor.
    + destruct (eof_byte all Hall s b r Hr) as (_ & By). rewrite byte_ans_byte by auto. exists p', (AByte b). eexists. split; [reflexivity|]. split; [|eassumption]. econstructor; eauto.
  - pose proof (peekb_ok all Hall k Hk p s I) as X. destruct (rest s) as [|b r] eqn:Hr; destruct X as (p' & -> & I'); cbn [bind fst snd].
    + exists p', AEof. eexists. split; [reflexivity|]. split; [|eassumption]. now constructor.
    + destruct (eof_byte all Hall s b r Hr) as (_ & By). rewrite byte_ans_byte by auto. exists p', (AByte b). eexists. split; [reflexivity|]. split; [|eassumption]. econstructor; eauto.
  - destruct (rest s) as [|b r0] eqn:Hr.
    + destruct (readline_eof p s I Hr) as (p' & -> & I'). cbn [bind fst snd]. exists p', AEof. eexists. split; [reflexivity|]. split; [|eassumption]. now constructor.
    + destruct (readline_ok p s I) as (p' & l & eol & r & -> & R & Pl & Eo & I'); [rewrite Hr; discriminate|]. cbn [bind fst snd]. exists p', (ABytes l). eexists. split; [reflexivity|]. split; [|eassumption]. now apply S_read_line.
  - destruct Al as (cs & bs & r & He & Hr & Hl). destruct n as [|n].
    + cbn [readstring_loop bind fst snd]. exists p, (AChars []), s. split; auto. split; auto. constructor.
    + destruct cs as [|c cs].
      * inversion He; subst. destruct Hl as [Hl|(_ & ->)]; [discriminate|]. destruct (readstring_eof n p s I Hr) as (p' & -> & I'). cbn [bind fst snd]. exists p', AEof. eexists. split; [reflexivity|]. split; [|eassumption]. constructor; auto. lia.
      * destruct (readstring_ok (c :: cs) (S n) p s bs r [] I He Hr) as (p' & s' & -> & I' & S1 & _); [left; discriminate|auto|]. cbn [bind fst snd app]. exists p', (AChars (c :: cs)), s'. split; auto. split; auto. rewrite S1 by (left; discriminate). econstructor; eauto. discriminate.
  - destruct Al as (Hn & He & Hp). destruct (rest s) as [|b r] eqn:Hr.
    + destruct (getz_eof all Hall k Hk p s n I Hn Hr He) as (p' & -> & I'). cbn [bind fst snd]. rewrite Z.eqb_refl. exists p', AEof. eexists. split; [reflexivity|]. split; [|eassumption]. now constructor.
    + destruct (getz_ok all Hall k Hk p s n I Hn) as (p' & j & -> & I' & (J1 & J2) & J3 & J4); auto; [rewrite Hr; discriminate|now rewrite Hr|]. cbn [bind fst snd].
      assert (Z.of_nat j =? C_EOF = false)%Z as -> by (apply Z.eqb_neq; unfold C_EOF; lia). rewrite Nat2Z.id, firstn_firstn, Nat.min_id. exists p'. eexists. eexists. split; [reflexivity|]. split; [|eassumption]. constructor; auto.
  - exists p, (APos (tell p)), s. split; auto. split; auto. rewrite (tell_ok p s I Al). constructor.
  - destruct Al as (He & Hs). unfold seek.
    assert (Co : (w = SeekCur -> off <> 0%Z) -> exists p' a s', Ok (fst (set_position p off w), match snd (set_position p off w) with Some n => APos n | None => AFalse end) = Ok (p', a) /\ step s (PortSeek off w) a s' /\ inv p' s').
    { intros Hw. pose proof (set_position_ok p s off w I He) as X. destruct (can_seek all (is_file k) (target all s off w)) eqn:Ec.
      - destruct X as (p' & -> & I'). cbn [fst snd]. exists p'. eexists. eexists. split; [reflexivity|]. split; [|eassumption]. now constructor.
      - destruct Hs as [Hs|Hs]; [discriminate|]. destruct (X Hs) as (p' & -> & I'). cbn [fst snd]. exists p'. eexists. eexists. split; [reflexivity|]. split; [|eassumption]. now constructor. }
    destruct w; try (apply Co; discriminate). destruct (Z.eqb_spec off 0) as [->|N]; [|now apply Co]. cbn [fst snd]. exists p. eexists. exists s. split; [reflexivity|]. split; auto. rewrite (tell_ok p s I) by auto. constructor.
Qed.
Lemma in_run_ok : forall ops p s, inv p s -> conforms all (exact_kind k) (is_file k) s ops (in_run p ops).
Proof.
  induction ops as [|o ops IH]; intros p s I; cbn [in_run conforms]; auto. intros Al. destruct (in_step_ok p s o I Al) as (p' & a & s' & -> & St & I'). cbn [fst snd]. exists s'. split; auto.
Qed.
Lemma open_inv oracle ready : inv (open_port k all oracle ready) (mkS 0 0 false).
Proof.
  eapply inv_bare with (e := false); cbn [open_port p_kind p_all p_ung p_scr s_pend s_eofp s_pos]; auto; try apply frag_nil. unfold buf_ok. cbn. destruct k; cbn; auto. lia.
Qed.
End Steps.
