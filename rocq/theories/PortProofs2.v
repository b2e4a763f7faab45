(** Input ports: the pushback, and every procedure against the specification *)
From Coq Require Import ZArith List Bool Lia.
From Verif Require Import Outcome Utf8Model Utf8Spec Utf8Proofs StringSpec StringProofs SearchProofs2 PortModel PortSpec PortProofs.
Import ListNotations.
Local Open Scope nat_scope.
Ltac Zify.zify_post_hook ::= idtac.

Definition pushed (p : port) : list Z :=
  if (p_ung p =? CH_INVALID)%Z then p_scr p else if (p_ung p =? C_EOF)%Z then [] else char_put (p_ung p).
(** what the scratch buffer can hold: a byte, or the end of a character *)
Definition frag (s : list Z) : Prop := length s <= 1 \/ exists c l0, valid_char c /\ l0 ++ s = char_put c.

Section Inv.
Context (all : list Z) (Hall : Forall is_byte all) (k : pkind) (Hk : kind_ok k).
Record inv (p : port) (s : sst) : Prop := Inv {
  i_kind : p_kind p = k; i_all : p_all p = all; i_buf : buf_ok p;
  i_ung : (p_ung p = CH_INVALID /\ frag (p_scr p) /\ s_eofp s = false)
       \/ (p_ung p = C_EOF /\ p_scr p = [] /\ avail p = [] /\ s_eofp s = true)
       \/ (valid_char (p_ung p) /\ p_scr p = [] /\ s_eofp s = false);
  i_pend : s_pend s = length (pushed p);
  i_rest : rest all s = pushed p ++ avail p;
  i_pos : spos p = (Z.of_nat (s_pos s) + Z.of_nat (length (pushed p)))%Z }.

Lemma inv_kind p s : inv p s -> kind_ok (p_kind p). Proof. intros I. now rewrite (i_kind _ _ I). Qed.
Lemma rest_add s n a b : rest all (mkS (s_pos s + n) a b) = skipn n (rest all s).
Proof. unfold rest. cbn [s_pos]. now rewrite skipn_skipn'. Qed.
Lemma rest_same s a b : rest all (mkS (s_pos s) a b) = rest all s. Proof. reflexivity. Qed.
Lemma rest_bytes s : Forall is_byte (rest all s).
Proof. unfold rest. rewrite Forall_forall in *. intros x H. apply Hall. rewrite <- (firstn_skipn (s_pos s) all). apply in_or_app. now right. Qed.
Lemma pushed_ung p c : p_ung p = c -> valid_char c -> pushed p = char_put c.
Proof. intros E (H & _). unfold pushed. rewrite E. destruct (Z.eqb_spec c CH_INVALID) as [X|X]; [unfold CH_INVALID in X; lia|]. destruct (Z.eqb_spec c C_EOF) as [Y|Y]; [unfold C_EOF in Y; lia|auto]. Qed.
Lemma pushed_scr p : p_ung p = CH_INVALID -> pushed p = p_scr p. Proof. intros E. unfold pushed. now rewrite E, Z.eqb_refl. Qed.
Lemma pushed_eof p : p_ung p = C_EOF -> pushed p = []. Proof. intros E. unfold pushed. now rewrite E. Qed.
Lemma valid_ung c : valid_char c -> (c =? CH_INVALID)%Z = false /\ (c =? C_EOF)%Z = false.
Proof. intros (H & _). unfold CH_INVALID, C_EOF. split; apply Z.eqb_neq; lia. Qed.
Lemma put_len c : valid_char c -> 1 <= length (char_put c) <= 6 /\ Z.of_nat (length (char_put c)) = nbytes c.
Proof. intros H. destruct (char_put_shape c H) as (b & bs & E & _ & L). split; [rewrite E; cbn [length]; lia|]. rewrite char_put_putc by (destruct H; auto). now apply putc_length. Qed.

(** the state with nothing pushed back *)
Lemma inv_bare p s e : p_kind p = k -> p_all p = all -> buf_ok p -> p_ung p = CH_INVALID -> frag (p_scr p) -> s_pend s = length (p_scr p) -> s_eofp s = e -> e = false ->
  rest all s = p_scr p ++ avail p -> spos p = (Z.of_nat (s_pos s) + Z.of_nat (length (p_scr p)))%Z -> inv p s.
Proof. intros E1 E2 E3 E4 E5 E6 E7 E8 E9 E10. constructor; auto; try (rewrite pushed_scr by auto; auto). left. subst. auto. Qed.
Lemma frag_nil : frag []. Proof. left. cbn. lia. Qed.
Lemma frag_skip n s : frag s -> frag (skipn n s).
Proof.
  intros [H|(c & l0 & V & E)]. { left. rewrite skipn_length. lia. }
  right. exists c, (l0 ++ firstn n s). split; auto. rewrite <- app_assoc, firstn_skipn. auto.
Qed.
Lemma frag_put c : valid_char c -> frag (char_put c). Proof. intros V. right. exists c, []. auto. Qed.

(** moving an ungotten character to the scratch buffer *)
Definition spill (p : port) : port := set_ung (set_scr p (char_put (p_ung p))) CH_INVALID.
Lemma spill_inv p s : inv p s -> valid_char (p_ung p) -> p_scr p = [] -> inv (spill p) s.
Proof.
  intros I V Sc. pose proof (pushed_ung p _ eq_refl V) as Pu. destruct I as [A B C D E F G]. rewrite Pu in *. eapply inv_bare with (e := s_eofp s); auto; cbn [spill set_ung set_scr p_scr]; try apply frag_put; auto.
  destruct D as [(D & _)|[(D & _)|(_ & _ & D)]]; auto; rewrite D in V; destruct V; unfold CH_INVALID, C_EOF in *; lia.
Qed.

(** ** Bytes *)
Lemma getb_scr_ok p s b l : inv p s -> p_ung p = CH_INVALID -> p_scr p = b :: l ->
  exists p', getb_scratch p = Ok (p', b) /\ inv p' (mkS (s_pos s + 1) (s_pend s - 1) false).
Proof.
  intros I U Sc. destruct I as [A B C D E F G]. rewrite (pushed_scr p U), Sc in *. unfold getb_scratch. rewrite Sc. eexists. split; [reflexivity|].
  eapply inv_bare with (e := false); auto; cbn [set_scr p_scr s_pend s_eofp s_pos length] in *; auto; try lia.
  - destruct D as [(_ & D & _)|[(D & _)|(D & _)]]; [|rewrite D in U; discriminate|rewrite U in D; destruct D; unfold CH_INVALID in *; lia].
    apply (frag_skip 1) in D. auto.
  - rewrite rest_add, F. reflexivity.
  - change (spos (set_scr p l)) with (spos p). lia.
Qed.
Lemma getb_ok p s : inv p s ->
  match rest all s with
  | [] => exists p', getb p = Ok (p', C_EOF) /\ inv p' (mkS (s_pos s) 0 false)
  | b :: _ => exists p', getb p = Ok (p', b) /\ inv p' (mkS (s_pos s + 1) (s_pend s - 1) false)
  end.
Proof.
  intros I. pose proof I as [A B C D E F G]. unfold getb. destruct (p_scr p) as [|b l] eqn:Sc.
  - destruct D as [(U & _ & De)|[(U & _ & Av & De)|(V & _ & De)]].
    + rewrite U. rewrite Z.eqb_refl. cbn [negb]. rewrite (pushed_scr p U), Sc in *. cbn [app length] in *. rewrite F.
      pose proof (getb_source_ok p (inv_kind _ _ I) C) as X. destruct (avail p) as [|b r] eqn:Av; destruct X as (p' & -> & M); exists p'; (split; [reflexivity|]).
      * destruct M. rewrite Sc, U, Av in *. eapply inv_bare with (e := false); cbn [s_pend s_eofp s_pos]; auto; try congruence.
        { rewrite mv_scr. apply frag_nil. } { now rewrite mv_scr. } { rewrite rest_same, F, mv_avail, mv_scr. reflexivity. } { rewrite mv_scr. cbn [length]. lia. }
      * destruct M. rewrite Sc, U, Av in *. eapply inv_bare with (e := false); cbn [s_pend s_eofp s_pos]; auto; try congruence.
        { rewrite mv_scr. apply frag_nil. } { rewrite mv_scr. cbn [length]. lia. } { rewrite rest_add, F, mv_avail, mv_scr. reflexivity. } { rewrite mv_scr. cbn [length]. lia. }
    + rewrite U. cbn [Z.eqb CH_INVALID C_EOF negb]. rewrite (pushed_eof p U), Av in *. cbn [app] in F. rewrite F. eexists. split; [reflexivity|].
      eapply inv_bare with (e := false); cbn [set_ung p_kind p_all p_ung p_scr s_pend s_eofp s_pos]; auto; rewrite ?Sc; auto.
      { apply frag_nil. } { rewrite rest_same, F. unfold avail. cbn [set_ung p_buf p_pos p_all]. fold (avail p). now rewrite Av. }
    + destruct (valid_ung _ V) as (-> & ->). cbn [negb]. unfold getb_ungotten. pose proof (put_len _ V) as (Lp & _). rewrite put_scr_ok by lia. cbn [bind].
      fold (spill p). pose proof (spill_inv p s I V Sc) as I'. destruct (char_put_shape _ V) as (b & bs & Ec & _).
      rewrite F, (pushed_ung p _ eq_refl V), Ec. cbn [app]. eapply getb_scr_ok; eauto.
  - assert (U : p_ung p = CH_INVALID) by (destruct D as [(D & _)|[(_ & D & _)|(_ & D & _)]]; auto; discriminate).
    rewrite F, (pushed_scr p U), Sc. cbn [app]. eapply getb_scr_ok; eauto.
Qed.
Lemma eof_byte s b r : rest all s = b :: r -> (b =? C_EOF)%Z = false /\ is_byte b.
Proof. intros E. pose proof (rest_bytes s) as H. rewrite E in H. inversion H; subst. split; auto. unfold is_byte, C_EOF in *. apply Z.eqb_neq. lia. Qed.

(** a byte below 128 that has been pushed back is alone *)
Lemma low_alone p s b r : inv p s -> rest all s = b :: r -> (b < 128)%Z -> s_pend s <= 1.
Proof.
  intros I Hr Hb. pose proof I as [A B C D E F G]. rewrite E. rewrite F in Hr.
  destruct D as [(U & Fr & De)|[(U & _ & Av & De)|(V & _ & De)]].
  - rewrite (pushed_scr p U) in *. destruct Fr as [Fr|(c & l0 & V & Ec)]; auto. destruct (p_scr p) as [|b' l]; [cbn; lia|]. cbn [app] in Hr. injection Hr as -> _. destruct l0 as [|x l0].
    + cbn [app] in Ec. destruct (char_put_shape c V) as (b0 & bs & Ec' & N & _). rewrite Ec' in Ec. injection Ec as -> ->. cbn [length]. unfold nfollows in N. rewrite <- N.
      assert (nfollows b0 = 0)%Z as X. { rewrite nfollows_rows. - unfold nfollows_spec. repeat match goal with |- context [if ?a then _ else _] => destruct a eqn:?; try lia end. - destruct (nfollows_putc c V) as (b1 & bs1 & E1 & Hy & _). rewrite char_put_putc in Ec' by (destruct V; auto). rewrite E1 in Ec'. injection Ec' as -> _. auto. } unfold nfollows in X. rewrite X. cbn. lia.
    + exfalso. destruct (put_shape c V) as (b0 & bs & Ec' & _ & Hc). rewrite Ec' in Ec. cbn [app] in Ec. injection Ec as _ Ec. assert (cont b) as X by (apply Hc; rewrite <- Ec; apply in_or_app; right; left; auto). unfold cont in X. lia.
  - rewrite (pushed_eof p U). cbn. lia.
  - rewrite (pushed_ung p _ eq_refl V) in *. destruct (char_put_shape _ V) as (b0 & bs & Ec' & N & _). rewrite Ec' in *. cbn [app] in Hr. injection Hr as -> _. cbn [length]. rewrite <- N.
    assert (nfollows b = 0)%Z as X. { rewrite nfollows_rows. - unfold nfollows_spec. repeat match goal with |- context [if ?a then _ else _] => destruct a eqn:?; try lia end. - destruct (nfollows_putc _ V) as (b1 & bs1 & E1 & Hy & _). rewrite char_put_putc in Ec' by (destruct V; auto). rewrite E1 in Ec'. injection Ec' as -> _. auto. } rewrite X. cbn. lia.
Qed.

(** ** Characters *)
Lemma scratch_loop_ok : forall n p t, p_kind p = k -> p_all p = all -> p_ung p = CH_INVALID -> p_scr p = [] -> buf_ok p -> n <= length (avail p) -> Forall is_byte (avail p) ->
  exists p', scratch_loop n p t = Ok (p', t ++ firstn n (avail p)) /\ moved n p p'.
Proof.
  induction n as [|n IH]; intros p t Ek Ea U Sc Hb Hn Fb; cbn [scratch_loop].
  - exists p. cbn [firstn]. rewrite app_nil_r. split; auto. now apply moved_0.
  - unfold getb. rewrite Sc, U. rewrite Z.eqb_refl. cbn [negb]. pose proof (getb_source_ok p ltac:(now rewrite Ek) Hb) as X. destruct (avail p) as [|b r] eqn:Av; [cbn in Hn; lia|]. destruct X as (p1 & -> & M). cbn [bind fst snd].
    inversion Fb as [|? ? By Fb']; subst.
    destruct (Z.eqb_spec b C_EOF) as [X|_]; [unfold is_byte, C_EOF in *; lia|].
    pose proof (mv_avail _ _ _ M) as A1. rewrite Av in A1. cbn [skipn] in A1.
    destruct (IH p1 (t ++ [b])) as (p' & E & M').
    + now rewrite (mv_kind _ _ _ M).
    + now rewrite (mv_all _ _ _ M).
    + now rewrite (mv_ung _ _ _ M).
    + now rewrite (mv_scr _ _ _ M).
    + apply M.
    + rewrite A1. cbn [length] in Hn. lia.
    + now rewrite A1.
    + exists p'. rewrite E, A1, <- app_assoc. cbn [app firstn]. split; auto. exact (moved_trans 1 n _ _ _ M M').
Qed.
Lemma bare_after p p' s n : inv p s -> p_ung p = CH_INVALID -> moved n (set_scr p []) p' -> length (p_scr p) + n <= length (rest all s) + 0 ->
  inv p' (mkS (s_pos s + (length (p_scr p) + n)) 0 false).
Proof.
  intros I U M _. pose proof I as [A B C D E F G]. rewrite (pushed_scr p U) in *. destruct M. cbn [set_scr p_kind p_all p_scr p_ung] in *. change (avail (set_scr p [])) with (avail p) in *. change (spos (set_scr p [])) with (spos p) in *.
  eapply inv_bare with (e := false); cbn [s_pend s_eofp s_pos]; auto; try congruence.
  - rewrite mv_scr. apply frag_nil.
  - now rewrite mv_scr.
  - rewrite rest_add, F, mv_scr, mv_avail. cbn [app]. rewrite <- (skipn_skipn' n (length (p_scr p))). rewrite skipn_app, skipn_all, Nat.sub_diag. reflexivity.
  - rewrite mv_scr. cbn [length]. lia.
Qed.
Lemma getc_ok p s c r : inv p s -> valid_char c -> rest all s = char_put c ++ r ->
  exists p', getc p = Ok (p', c) /\ inv p' (mkS (s_pos s + length (char_put c)) 0 false).
Proof.
  intros I Vc Hr. pose proof I as [A B C D E F G]. destruct (char_put_shape c Vc) as (b & bs & Ec & Nb & L5). unfold getc. destruct (p_scr p) as [|b' l] eqn:Sc.
  - destruct D as [(U & _ & De)|[(U & _ & Av & De)|(V & _ & De)]].
    + rewrite U, Z.eqb_refl. cbn [negb]. rewrite (pushed_scr p U), Sc in F. cbn [app] in F. rewrite F in Hr.
      assert (X : exists p', match p_kind p with KFile m size => getc_file p m size | KStr => getc_str p end = Ok (p', c) /\ moved (length (char_put c)) p p').
      { pose proof (inv_kind _ _ I) as Ko. destruct (p_kind p) as [m size|] eqn:Ek; [eapply getc_file_ok; eauto; now rewrite Ek|]. eapply getc_str_ok; eauto. unfold buf_ok in C. now rewrite Ek in C. }
      destruct X as (p' & -> & M). exists p'. split; auto.
      pose proof (bare_after p p' s (length (char_put c)) I U) as Y. rewrite Sc in Y. cbn [length Nat.add] in Y. apply Y.
      * destruct M. constructor; auto. cbn [set_scr p_scr]. congruence.
      * rewrite F, Hr, app_length. lia.
    + exfalso. rewrite (pushed_eof p U), Av in F. rewrite F, Ec in Hr. discriminate.
    + destruct (valid_ung _ V) as (-> & _). cbn [negb]. assert (p_ung p = c).
      { rewrite F, (pushed_ung p _ eq_refl V) in Hr. pose proof (char_get_putc _ (avail p) V) as G1. rewrite Hr, char_get_putc in G1 by auto. now injection G1. }
      exists (set_ung p CH_INVALID). split; [congruence|]. rewrite (pushed_ung p _ eq_refl V) in *. rewrite H in *.
      eapply inv_bare with (e := false); cbn [set_ung p_kind p_all p_ung p_scr s_pend s_eofp s_pos]; auto; rewrite ?Sc; auto; try apply frag_nil; cbn [length app].
      * rewrite rest_add, F, skipn_app, skipn_all, Nat.sub_diag. reflexivity.
      * change (spos (set_ung p CH_INVALID)) with (spos p). lia.
  - assert (U : p_ung p = CH_INVALID) by (destruct D as [(D & _)|[(_ & D & _)|(_ & D & _)]]; auto; discriminate).
    rewrite (pushed_scr p U), Sc in *. assert (b' = b) as -> by (rewrite F, Ec in Hr; cbn [app] in Hr; congruence).
    assert (Cs : l = [] \/ l = bs).
    { destruct D as [(_ & Fr & _)|[(D & _)|(D & _)]]; [|rewrite D in U; discriminate|rewrite U in D; destruct D; unfold CH_INVALID in *; lia].
      destruct Fr as [Fr|(c' & l0 & V' & Ec')]; [left; destruct l; auto; cbn in Fr; lia|]. destruct l0 as [|x l0].
      - cbn [app] in Ec'. right. assert (Eq : c' = c). { rewrite F, Ec' in Hr. pose proof (char_get_putc c' (avail p) V') as G1. rewrite Hr, char_get_putc in G1 by auto. now injection G1. } subst c'. congruence.
      - exfalso. destruct (put_shape c' V') as (y & ys & Ey & _ & Hy). rewrite Ey in Ec'. cbn [app] in Ec'. injection Ec' as _ Ec'. assert (cont b) as X by (apply Hy; rewrite <- Ec'; apply in_or_app; right; left; auto).
        destruct (put_shape c Vc) as (z & zs & Ez & Hz & _). rewrite Ez in Ec. injection Ec as -> _. contradiction. }
    unfold getc_scratch. rewrite Sc. cbn [hd]. rewrite Nb. cbn [length].
    assert (Hl : l ++ avail p = bs ++ r) by (rewrite F, Ec in Hr; cbn [app] in Hr; congruence).
    destruct (scratch_loop_ok (S (length bs) - S (length l)) (set_scr p []) (b :: l)) as (p1 & E1 & M1); auto.
    { change (avail (set_scr p [])) with (avail p). assert (length (l ++ avail p) = length (bs ++ r)) by (now rewrite Hl). rewrite !app_length in H. lia. }
    { change (avail (set_scr p [])) with (avail p). pose proof (rest_bytes s) as Fb. rewrite F in Fb. apply Forall_app in Fb. apply Fb. }
    rewrite E1. cbn [bind fst snd]. change (avail (set_scr p [])) with (avail p) in *.
    assert (Et : (b :: l) ++ firstn (S (length bs) - S (length l)) (avail p) = char_put c).
    { rewrite Ec. cbn [app]. f_equal. destruct Cs as [-> | ->].
      - cbn [app length] in *. rewrite Hl. cbn [Nat.sub]. rewrite Nat.sub_0_r, firstn_app, firstn_all, Nat.sub_diag. cbn [firstn]. apply app_nil_r.
      - rewrite Nat.sub_diag. cbn [firstn]. apply app_nil_r. }
    rewrite Et. assert (Eg : char_get_int (char_put c) = Ok c) by (rewrite <- (app_nil_r (char_put c)); now apply char_get_int_put). rewrite Eg. cbn [bind]. destruct (valid_ung c Vc) as (-> & _).
    exists p1. split; auto. pose proof (bare_after p p1 s _ I U M1) as Y. rewrite Sc in Y. cbn [length] in Y. rewrite Ec. cbn [length].
    replace (S (length bs)) with (S (length l) + (S (length bs) - S (length l))) by (destruct Cs; subst l; cbn [length]; lia). apply Y. rewrite Hr, app_length, Ec. cbn [length]. destruct Cs; subst l; cbn [length]; lia.
Qed.
Lemma getc_eof p s : inv p s -> rest all s = [] -> exists p', getc p = Ok (p', C_EOF) /\ inv p' (mkS (s_pos s) 0 false).
Proof.
  intros I Hr. pose proof I as [A B C D E F G]. rewrite F in Hr. apply app_eq_nil in Hr as (Hp & Hav). rewrite Hp in *. unfold getc.
  destruct D as [(U & _ & De)|[(U & Sc & Av & De)|(V & Sc & De)]].
  - rewrite (pushed_scr p U) in Hp. rewrite Hp, U, Z.eqb_refl. cbn [negb].
    assert (X : exists p', match p_kind p with KFile m size => getc_file p m size | KStr => getc_str p end = Ok (p', C_EOF) /\ moved 0 p p').
    { pose proof (inv_kind _ _ I) as Ko. destruct (p_kind p) as [m size|] eqn:Ek.
      - unfold getc_file. change (match p_buf p with [] => bufport_fill p m size 1 false | _ :: _ => Ok (p, 1) end) with (first_fill p m size).
        destruct (first_fill_ok p m size Ek) as (p1 & r & -> & M & X); [now rewrite Ek|auto|]. cbn [bind fst snd]. destruct X as [(-> & _)|(_ & b & buf & Eb)]; [exists p1; auto|].
        exfalso. pose proof (mv_avail _ _ _ M) as X. cbn [skipn] in X. rewrite Hav in X. unfold avail in X. rewrite Eb in X. discriminate.
      - unfold getc_str. unfold buf_ok in C. rewrite Ek in C. unfold avail in Hav. rewrite C in Hav. cbn [app] in Hav. rewrite nth_error_skipn, Hav. cbn [hd_error]. exists p. split; auto. apply moved_0. unfold buf_ok. now rewrite Ek. }
    destruct X as (p' & -> & M). exists p'. split; auto. destruct M. rewrite Hp, U in *.
    eapply inv_bare with (e := false); cbn [s_pend s_eofp s_pos]; auto; try congruence; rewrite ?mv_scr; auto; try apply frag_nil.
    + rewrite rest_same, F, Hav, mv_avail, Hav. reflexivity.
    + cbn [length] in *. lia.
  - rewrite Sc, U. cbn [Z.eqb CH_INVALID C_EOF negb]. eexists. split; [reflexivity|].
    eapply inv_bare with (e := false); cbn [set_ung p_kind p_all p_ung p_scr s_pend s_eofp s_pos]; auto; rewrite ?Sc; auto; try apply frag_nil.
  - exfalso. rewrite (pushed_ung p _ eq_refl V) in Hp. pose proof (put_len _ V) as (X & _). rewrite Hp in X. cbn in X. lia.
Qed.
End Inv.
