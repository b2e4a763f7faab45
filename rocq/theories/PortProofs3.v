(** Input ports: peeking, blocks, lines, positions; whole sessions *)
From Coq Require Import ZArith List Bool Lia.
From Verif Require Import Outcome Utf8Model Utf8Spec Utf8Proofs StringSpec StringProofs SearchProofs2 PortModel PortSpec PortProofs PortProofs2.
Import ListNotations.
Local Open Scope nat_scope.
Ltac Zify.zify_post_hook ::= idtac.

Section Steps.
Context (all : list Z) (Hall : Forall is_byte all) (k : pkind) (Hk : kind_ok k).
Notation inv := (inv all k).
Notation rest := (rest all).

Lemma bare_state p s : inv p s -> s_eofp s = false -> s_pend s = 0 -> p_ung p = CH_INVALID /\ p_scr p = [].
Proof.
  intros I He Hp. pose proof I as [A B C D E F G]. destruct D as [(U & _ & _)|[(_ & _ & _ & X)|(V & _ & _)]]; [|congruence|].
  - split; auto. rewrite (pushed_scr p U), Hp in E. destruct (p_scr p); [auto|discriminate].
  - rewrite (pushed_ung p _ eq_refl V), Hp in E. pose proof (put_len _ V) as (X & _). lia.
Qed.
(** pushing a byte back *)
Lemma unget_inv p s b r e : inv p (mkS (s_pos s + 1) 0 false) -> rest s = b :: r -> inv (set_scr p [b]) (mkS (s_pos s) 1 e) \/ e = true.
Proof.
  intros I Hr. destruct e; [now right|left]. destruct (bare_state _ _ I) as (U & Sc); auto. pose proof I as [A B C D E F G]. rewrite (pushed_scr p U), Sc in *. cbn [s_pos length app] in *.
  eapply inv_bare with (e := false); cbn [set_scr p_kind p_all p_ung p_scr s_pend s_eofp s_pos]; auto.
  - left. cbn. lia.
  - rewrite rest_same, Hr. rewrite rest_add, Hr in F. cbn [skipn] in F. change (avail (set_scr p [b])) with (avail p). now rewrite <- F.
  - change (spos (set_scr p [b])) with (spos p). cbn [length]. lia.
Qed.

(** ** Peeking *)
Lemma peekb_ok p s : inv p s ->
  match rest s with
  | [] => exists p', peekb p = Ok (p', C_EOF) /\ inv p' (mkS (s_pos s) 0 true)
  | b :: _ => exists p', peekb p = Ok (p', b) /\ inv p' (mkS (s_pos s) (Nat.max 1 (s_pend s)) false)
  end.
Proof.
  intros I. pose proof I as [A B C D E F G]. pose proof (getb_ok all Hall k Hk p s I) as X. unfold peekb. destruct (p_scr p) as [|b l] eqn:Sc.
  - destruct (rest s) as [|b r] eqn:Hr.
    + destruct X as (p1 & -> & I1); cbn [bind fst snd]. rewrite Z.eqb_refl. eexists. split; [reflexivity|]. destruct (bare_state _ _ I1) as (U & Sc1); auto. destruct I1 as [A1 B1 C1 D1 E1 F1 G1].
      rewrite (pushed_scr p1 U), Sc1 in *. constructor; cbn [set_ung p_kind p_all p_ung p_scr s_pend s_eofp s_pos]; auto.
      right; left. split; auto. split; auto. split; auto. rewrite rest_same, Hr in F1. change (avail (set_ung p1 C_EOF)) with (avail p1). cbn [app] in F1. now rewrite <- F1.
    + destruct (eof_byte all Hall s b r Hr) as (Eb & By). assert (Pb : (0 <=? b = true)%Z) by (unfold is_byte in By; apply Z.leb_le; lia).
      destruct D as [(U & Fr & De)|[(U & _ & Av & De)|(V & _ & De)]].
      * destruct X as (p1 & -> & I1); cbn [bind fst snd]. rewrite Eb, Pb. rewrite (pushed_scr p U), Sc in E. cbn [length] in E. rewrite E in *. destruct (bare_state _ _ I1) as (U1 & Sc1); auto. rewrite Sc1.
        cbn [length Nat.ltb Nat.leb MAX_BYTES assert]. rewrite put_scr_ok by (cbn; lia). cbn [bind]. eexists. split; [reflexivity|]. destruct (unget_inv p1 s b r false I1 Hr) as [Y|Y]; [exact Y|discriminate].
      * exfalso. rewrite (pushed_eof p U), Av in F. discriminate.
      * pose proof (put_len _ V) as (Lp & _). destruct (char_put_shape _ V) as (b0 & bs & Ec & _). rewrite (pushed_ung p _ eq_refl V) in *. rewrite Ec in Lp. cbn [length] in Lp.
        assert (b0 = b) as -> by (rewrite Ec in F; cbn [app] in F; congruence).
        assert (Eg : getb p = Ok (set_scr (spill p) bs, b)).
        { unfold getb. rewrite Sc. destruct (valid_ung _ V) as (-> & ->). cbn [negb]. unfold getb_ungotten. rewrite put_scr_ok by (rewrite Ec; cbn [length]; lia). cbn [bind]. fold (spill p). unfold getb_scratch. change (p_scr (spill p)) with (char_put (p_ung p)). rewrite Ec. reflexivity. }
        rewrite Eg. cbn [bind fst snd]. rewrite Eb, Pb. change (p_scr (set_scr (spill p) bs)) with bs. unfold assert. assert (length bs <? MAX_BYTES = true) as -> by (apply Nat.ltb_lt; unfold MAX_BYTES; lia).
        rewrite put_scr_ok by (cbn [length]; lia). cbn [bind]. eexists. split; [reflexivity|].
        replace (set_scr (set_scr (spill p) bs) (b :: bs)) with (spill p) by (unfold spill; rewrite Ec; reflexivity).
        replace (mkS (s_pos s) (Nat.max 1 (s_pend s)) false) with s; [apply spill_inv; auto|]. destruct s as [a1 a2 a3]. cbn [s_pos s_pend s_eofp] in *. rewrite Ec in E. cbn [length] in E. subst a3. f_equal. lia.
  - assert (U : p_ung p = CH_INVALID) by (destruct D as [(D & _)|[(_ & D & _)|(_ & D & _)]]; auto; discriminate).
    assert (De : s_eofp s = false). { destruct D as [(_ & _ & D)|[(_ & D & _)|(_ & D & _)]]; auto; discriminate. }
    rewrite (pushed_scr p U), Sc in *. rewrite F. cbn [app]. exists p. split; auto. replace (mkS (s_pos s) (Nat.max 1 (s_pend s)) false) with s; auto. destruct s as [a1 a2 a3]. cbn [s_pos s_pend s_eofp length] in *. subst a3. f_equal. lia.
Qed.
Lemma peekc_ok p s c r : inv p s -> valid_char c -> rest s = char_put c ++ r ->
  exists p', peekc p = Ok (p', c) /\ inv p' (mkS (s_pos s) (length (char_put c)) false).
Proof.
  intros I Vc Hr. unfold peekc. destruct (Z.eqb_spec (p_ung p) CH_INVALID) as [U|U].
  - destruct (getc_ok all Hall k Hk p s c r I Vc Hr) as (p' & -> & I'). cbn [bind fst snd]. eexists. split; [reflexivity|]. destruct (bare_state _ _ I') as (U' & Sc); auto.
    destruct I' as [A B C D E F G]. rewrite (pushed_scr p' U'), Sc in *. assert (Pu : pushed (set_ung p' c) = char_put c) by (now apply pushed_ung).
    constructor; rewrite ?Pu; cbn [set_ung p_kind p_all p_ung p_scr s_pend s_eofp s_pos length] in *; auto.
    + rewrite rest_same, Hr. f_equal. change (avail (set_ung p' c)) with (avail p'). cbn [app] in F. rewrite <- F, rest_add, Hr, skipn_app, skipn_all, Nat.sub_diag. reflexivity.
    + change (spos (set_ung p' c)) with (spos p'). lia.
  - pose proof I as [A B C D E F G]. destruct D as [(X & _)|[(U' & _ & Av & _)|(V & Sc & De)]]; [contradiction| |].
    + exfalso. rewrite (pushed_eof p U'), Av in F. pose proof (put_len _ Vc) as (L & _). rewrite F in Hr. symmetry in Hr. apply app_eq_nil in Hr as (Hr & _). rewrite Hr in L. cbn in L. lia.
    + rewrite (pushed_ung p _ eq_refl V) in *. assert (Ep : p_ung p = c). { rewrite F in Hr. pose proof (char_get_putc _ (avail p) V) as G1. rewrite Hr, char_get_putc in G1 by auto. now injection G1. }
      rewrite Ep in *. exists p. split; auto. replace (mkS (s_pos s) (length (char_put c)) false) with s; auto. destruct s as [a1 a2 a3]. cbn [s_pos s_pend s_eofp] in *. subst. auto.
Qed.
Lemma peekc_eof p s : inv p s -> rest s = [] -> exists p', peekc p = Ok (p', C_EOF) /\ inv p' (mkS (s_pos s) 0 true).
Proof.
  intros I Hr. unfold peekc. destruct (Z.eqb_spec (p_ung p) CH_INVALID) as [U|U].
  - destruct (getc_eof all Hall k Hk p s I Hr) as (p' & -> & I'). cbn [bind fst snd]. eexists. split; [reflexivity|]. destruct (bare_state _ _ I') as (U' & Sc); auto.
    destruct I' as [A B C D E F G]. rewrite (pushed_scr p' U'), Sc in *. constructor; cbn [set_ung p_kind p_all p_ung p_scr s_pend s_eofp s_pos length] in *; auto.
    right; left. split; auto. split; auto. split; auto. change (avail (set_ung p' C_EOF)) with (avail p'). cbn [app] in F. now rewrite <- F.
  - pose proof I as [A B C D E F G]. destruct D as [(X & _)|[(U' & _ & Av & De)|(V & Sc & De)]]; [contradiction| |].
    + rewrite (pushed_eof p U') in *. rewrite U'. exists p. split; auto. replace (mkS (s_pos s) 0 true) with s; auto. destruct s as [a1 a2 a3]. cbn [s_pos s_pend s_eofp length] in *. subst. auto.
    + exfalso. rewrite (pushed_ung p _ eq_refl V) in *. pose proof (put_len _ V) as (L & _). rewrite Hr in F. symmetry in F. apply app_eq_nil in F as (F & _). rewrite F in L. cbn in L. lia.
Qed.

(** ** Blocks *)
Lemma getz_scr_ok p s n : inv p s -> p_ung p = CH_INVALID -> 1 <= n -> (n <= s_pend s \/ s_pend s < length (rest s)) ->
  exists p' j, getz_scratch p n = Ok (p', firstn j (rest s), Z.of_nat j) /\ inv p' (mkS (s_pos s + j) (s_pend s - j) false)
    /\ 1 <= j <= n /\ j <= length (rest s) /\ (exact_kind k = true -> j = Nat.min n (length (rest s))).
Proof.
  intros I U H1 Hn. pose proof I as [A B C D E F G]. rewrite (pushed_scr p U) in *. unfold getz_scratch. destruct (Nat.leb_spec n (length (p_scr p))) as [L|L].
  - eexists. exists n. split; [rewrite F, firstn_app; replace (n - length (p_scr p)) with 0 by lia; cbn [firstn]; rewrite app_nil_r; reflexivity|]. rewrite F, app_length. split; [|repeat split; auto; lia].
    eapply inv_bare with (e := false); cbn [set_scr p_kind p_all p_ung p_scr s_pend s_eofp s_pos]; auto.
    + destruct D as [(_ & D & _)|[(D & _)|(D & _)]]; [now apply frag_skip|rewrite D in U; discriminate|rewrite U in D; destruct D; unfold CH_INVALID in *; lia].
    + rewrite skipn_length. lia.
    + rewrite rest_add, F, skipn_app. replace (n - length (p_scr p)) with 0 by lia. reflexivity.
    + rewrite skipn_length. change (spos (set_scr p (skipn n (p_scr p)))) with (spos p). lia.
  - assert (La : 0 < length (avail p)) by (rewrite F, app_length in Hn; lia).
    destruct (getz_source_ok (set_scr p []) (n - length (p_scr p))) as (p' & j & M & J1 & J2 & J3 & J4); [now rewrite <- A in Hk|auto|lia|]. change (avail (set_scr p [])) with (avail p) in *. cbn [set_scr p_kind] in J3. rewrite A in J3.
    destruct J4 as [(X & _)|(J4 & J5)]; [rewrite X in La; cbn in La; lia|]. rewrite J5. cbn [bind fst snd].
    exists p', (length (p_scr p) + j). split; [rewrite F, firstn_app, (firstn_all2 (n := length (p_scr p) + j) (p_scr p)) by lia; replace (length (p_scr p) + j - length (p_scr p)) with j by lia; do 2 f_equal; lia|].
    rewrite F, app_length. split; [|split; [lia|split; [lia|intros X; rewrite (J3 X); lia]]]. replace (s_pend s - (length (p_scr p) + j)) with 0 by lia.
    apply (bare_after all Hall k Hk p p' s j I U M). rewrite F, app_length. lia.
Qed.
Lemma getz_ok p s n : inv p s -> 1 <= n -> rest s <> [] -> s_eofp s = false -> (n <= s_pend s \/ s_pend s = 0 \/ s_pend s < length (rest s)) ->
  exists p' j, getz p n = Ok (p', firstn j (rest s), Z.of_nat j) /\ inv p' (mkS (s_pos s + j) (s_pend s - j) false)
    /\ 1 <= j <= n /\ j <= length (rest s) /\ (exact_kind k = true -> j = Nat.min n (length (rest s))).
Proof.
  intros I H1 Hr He Hn. assert (Hn' : n <= s_pend s \/ s_pend s < length (rest s)) by (destruct (rest s); [contradiction|cbn [length] in *; lia]).
  pose proof I as [A B C D E F G]. unfold getz. destruct (p_scr p) as [|b l] eqn:Sc.
  - destruct D as [(U & _ & De)|[(U & _ & Av & De)|(V & _ & De)]]; [|congruence|].
    + rewrite U, Z.eqb_refl. cbn [negb]. pose proof (getz_scr_ok p s n I U H1 Hn') as X. unfold getz_scratch in X. rewrite Sc in X. cbn [length] in X. assert (n <=? 0 = false) as Y by (apply Nat.leb_gt; lia). rewrite Y in X. rewrite Nat.sub_0_r in X.
      replace (set_scr p []) with p in X by (destruct p; cbn in *; subst; reflexivity). destruct (getz_source p n) as [[[p' l] z]| | |]; cbn [bind fst snd] in X; try (destruct X as (? & ? & X & _); discriminate).
      cbn [Z.of_nat Z.add app] in X. exact X.
    + destruct (valid_ung _ V) as (-> & _). cbn [negb]. pose proof (put_len _ V) as (Lp & _). rewrite put_scr_ok by lia. cbn [bind]. fold (spill p). apply getz_scr_ok; auto. now apply spill_inv.
  - assert (U : p_ung p = CH_INVALID) by (destruct D as [(D & _)|[(_ & D & _)|(_ & D & _)]]; auto; discriminate). now apply getz_scr_ok.
Qed.
Lemma getz_eof p s n : inv p s -> 1 <= n -> rest s = [] -> s_eofp s = false ->
  exists p', getz p n = Ok (p', [], C_EOF) /\ inv p' (mkS (s_pos s) 0 false).
Proof.
  intros I H1 Hr He. pose proof I as [A B C D E F G]. assert (Hp : s_pend s = 0). { rewrite E. rewrite Hr in F. symmetry in F. apply app_eq_nil in F as (-> & _). reflexivity. }
  destruct (bare_state p s I He Hp) as (U & Sc). unfold getz. rewrite Sc, U, Z.eqb_refl. cbn [negb]. rewrite (pushed_scr p U), Sc in *. cbn [app] in F.
  destruct (getz_source_ok p n) as (p' & j & M & J1 & J2 & J3 & J4); [now rewrite A|auto|lia|]. destruct J4 as [(X & -> & J5)|(J4 & J5)]; [|rewrite <- F, Hr in J2; cbn in J2; lia].
  exists p'. split; auto. destruct M. eapply inv_bare with (e := false); cbn [s_pend s_eofp s_pos]; auto; try congruence; rewrite ?mv_scr, ?Sc; auto; try apply frag_nil.
  - rewrite rest_same, Hr, mv_avail, <- F, Hr. reflexivity.
  - cbn [length] in *. lia.
Qed.
End Steps.
