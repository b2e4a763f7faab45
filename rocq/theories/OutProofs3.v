(** Output ports: whole sessions; string ports *)
From Coq Require Import ZArith List Bool Lia.
From Verif Require Import Outcome Utf8Model Utf8Spec Utf8Proofs StringModel StringSpec StringProofs PortModel PortProofs OutModel OutSpec OutProofs OutProofs2.
Import ListNotations.
Local Open Scope nat_scope.
Ltac Zify.zify_post_hook ::= idtac.

Section Run.
Context (size : nat) (Hsize : 1 <= size) (oracle : nat -> nat) (full : bool) (Hfull : full = true -> fullw size oracle).
Notation oinv := (oinv size oracle).
Lemma enc1 c : valid_char c -> utf8_encodes c (char_put c). Proof. apply putc_encodes. Qed.
Lemma out_step_ok p s o : oinv p s -> wallowed s o ->
  (out_step p o = Panic /\ may_abort full (6 <=? size) o) \/ exists p' a s', out_step p o = Ok (p', a) /\ wstep full s o a s' /\ oinv p' s'.
Proof.
  intros I (Hc & Al). destruct o as [b|c|cs|bs| | | |off w|m| |]; cbn [out_step].
  - right. destruct (putb_ok size Hsize oracle full Hfull p s b I Hc) as (p' & k & -> & I' & K). cbn [bind]. eexists. eexists. eexists. split; [reflexivity|]. split; [|eassumption]. now constructor.
  - destruct (putc_ok size Hsize oracle full Hfull p s c I Hc Al) as [(E & A1 & A2)|(p' & k & E & I' & K)]; rewrite E; cbn [bind].
    + left. split; auto. split; auto.
    + right. eexists. eexists. eexists. split; [reflexivity|]. split; [|eassumption]. constructor; auto. now apply enc1.
  - right. destruct (puts_ok size Hsize oracle full Hfull p s cs I Hc Al) as (p' & k & -> & I' & K). cbn [bind]. eexists. eexists. eexists. split; [reflexivity|]. split; [|eassumption]. constructor; auto. now apply all_bytes_of.
  - right. destruct (putz_ok size Hsize oracle full Hfull p s bs I Hc) as (p' & k & col & -> & I' & K & Co). cbn [bind]. eexists. eexists. eexists. split; [reflexivity|]. split; [|eassumption]. now constructor.
  - right. destruct (oflush_ok size Hsize oracle full p s I Hc) as (p' & -> & I'). cbn [bind]. eexists. eexists. eexists. split; [reflexivity|]. split; [|eassumption]. constructor.
  - right. destruct (oclose_ok size Hsize oracle full p s I Hc) as (p' & -> & I'). cbn [bind]. eexists. eexists. eexists. split; [reflexivity|]. split; [|eassumption]. constructor.
  - right. rewrite (otell_ok size Hsize oracle full p s I Hc). cbn [bind]. exists p. eexists. exists s. split; [reflexivity|]. split; [constructor|auto].
  - right. unfold oseek. rewrite (check_ok size oracle p s) by auto.
    assert (X : (w = SeekCur -> off <> 0%Z) -> exists p' a s', (do x <- oset_position p off w; Ok (fst x, match snd x with Some n => OPos n | None => OFalse end)) = Ok (p', a) /\ wstep full s (OSeek off w) a s' /\ oinv p' s').
    { intros Hw. destruct (oset_position_ok size Hsize oracle full p s off w I) as (p' & X). destruct (Z.ltb_spec (wtarget s off w) 0) as [L|L]; destruct X as (E & I'); rewrite E; cbn [bind fst snd]; eexists; eexists; eexists; (split; [reflexivity|]); (split; [|eassumption]); now constructor. }
    destruct w; try (apply X; discriminate). destruct (Z.eqb_spec off 0) as [->|N]; [|now apply X]. rewrite (otell_ok size Hsize oracle full p s I Hc). cbn [bind fst snd]. exists p. eexists. exists s. split; [reflexivity|]. split; auto. constructor.
  - right. eexists. eexists. eexists. split; [reflexivity|]. split; [constructor|]. destruct I as [A B C D E F G H J K L]. constructor; cbn; auto.
  - right. rewrite (oi_col _ _ _ _ I). exists p. eexists. exists s. split; [reflexivity|]. split; [constructor|auto].
  - right. rewrite (oi_col _ _ _ _ I). destruct (Z.eqb_spec (w_col s) 0) as [E|N].
    + exists p. eexists. exists s. split; [reflexivity|]. split; [now constructor|auto].
    + destruct (putc_ok size Hsize oracle full Hfull p s 10 I Hc) as [(E & A1 & A2)|(p' & k & E & I' & K)]; [split; lia|lia|]. rewrite E. cbn [bind]. eexists. eexists. eexists. split; [reflexivity|]. split; [|eassumption]. cbn [column_after Z.eqb]. now constructor.
Qed.
Lemma out_run_ok : forall ops p s, oinv p s -> wconforms full (6 <=? size) s ops (out_run p ops).
Proof.
  induction ops as [|o ops IH]; intros p s I; cbn [out_run wconforms]; auto. intros Al. destruct (out_step_ok p s o I Al) as [(-> & M)|(p' & a & s' & -> & St & I')]; auto. cbn [fst snd]. exists s'. split; auto. split; auto. apply (oi_file _ _ _ _ I').
Qed.
Lemma open_out_inv f m : oinv (open_out f size m oracle) (mkW f 0 [] 0 0 m false).
Proof. constructor; cbn; auto; lia. Qed.
End Run.

(** ** String ports *)
Lemma map_last_app {A} (f : A -> A) l x : map_last f (l ++ [x]) = l ++ [f x].
Proof. induction l as [|y l IH]; [reflexivity|]. cbn [app map_last]. rewrite IH. destruct (l ++ [x]) eqn:E; [destruct l; discriminate|reflexivity]. Qed.
Lemma count_length_sound : forall fuel bs n, Forall is_byte bs -> length bs < fuel -> (exists r, count_length_loop fuel bs (length bs) = Ok r) /\ (count_length_loop fuel bs (length bs) = Ok (Some n) -> exists cs, encodes_all cs bs /\ length cs = n).
Proof.
  induction fuel as [|f IH]; intros bs n Hb Hf; [lia|]. cbn [count_length_loop]. destruct bs as [|c bs]; cbn [length].
  { split; [eauto|]. intros E. injection E as <-. exists []. split; [constructor|reflexivity]. }
  inversion Hb as [|? ? Bc Hb']; subst. destruct (Nat.ltb_spec (length bs) (Z.to_nat (nfollows c))) as [L|L]. { split; [eauto|discriminate]. }
  assert (No : char_get (c :: bs) <> Oob). { rewrite char_get_getc by auto. apply getc_no_oob; auto. assert (0 <= nfollows c)%Z by (rewrite nfollows_rows by auto; unfold nfollows_spec; repeat match goal with |- context [if ?a then _ else _] => destruct a end; lia). lia. }
  destruct (char_get (c :: bs)) as [ch| |] eqn:G; [|split; [eauto|discriminate]|contradiction].
  rewrite char_get_getc in G by auto. destruct (getc_sound _ _ Hb G) as (V & rs & E). rewrite <- char_put_putc in E by (destruct V; auto). destruct (nfollows_putc ch V) as (b & tl & Ep & _ & N & _). rewrite <- char_put_putc in Ep by (destruct V; auto). rewrite Ep in E. cbn [app] in E. injection E as -> ->.
  rewrite N, Nat2Z.id. replace (length tl + 1) with (S (length tl)) by lia. cbn [skipn]. rewrite skipn_app, skipn_all, Nat.sub_diag. cbn [skipn app]. rewrite app_length in *. replace (length tl + length rs - length tl) with (length rs) by lia.
  apply Forall_app in Hb' as (_ & Hr). assert (Lr : length rs < f) by (cbn [length] in Hf; rewrite app_length in Hf; lia). split.
  - destruct (IH rs 0 Hr Lr) as ((r & ->) & _). cbn [bind]. eauto.
  - destruct (IH rs 0 Hr Lr) as ((r & Er) & _). rewrite Er. cbn [bind]. destruct r as [m|]; [|discriminate]. intros X. injection X as <-. destruct (IH rs m Hr Lr) as (_ & Y). destruct (Y Er) as (cs & Ec & <-). exists (ch :: cs). split; [|reflexivity].
    change (b :: tl ++ rs) with ((b :: tl) ++ rs). rewrite <- Ep. constructor; auto. now apply putc_encodes.
Qed.
Lemma count_length_ok bs : Forall is_byte bs -> (exists cs, encodes_all cs bs /\ count_length bs (length bs) = Ok (Some (length cs))) \/ ((forall cs, ~ encodes_all cs bs) /\ count_length bs (length bs) = Ok None).
Proof.
  intros Hb. unfold count_length. destruct (count_length_sound (S (length bs)) bs 0 Hb ltac:(lia)) as (([n|] & E) & _).
  - left. destruct (count_length_sound (S (length bs)) bs n Hb ltac:(lia)) as (_ & X). destruct (X E) as (cs & Ec & <-). eauto.
  - right. split; auto. intros cs Hcs. apply bytes_of_all in Hcs as (V & ->). pose proof (count_length_enc cs (S (length (enc cs))) [] V) as X. rewrite bytes_of_enc in E. rewrite app_nil_r in X. rewrite X in E by lia. discriminate.
Qed.
Lemma encodes_all_app cs1 : forall bs1 cs2 bs2, encodes_all cs1 bs1 -> encodes_all cs2 bs2 -> encodes_all (cs1 ++ cs2) (bs1 ++ bs2).
Proof. induction cs1 as [|c cs1 IH]; intros bs1 cs2 bs2 H1 H2; inversion H1; subst; cbn [app]; auto. rewrite <- app_assoc. constructor; auto. Qed.

Definition chunk_done (c : chunk) : Prop := c_bytes c = length (c_data c).
Definition cdata (l : list chunk) : list Z := concat (map c_data l).
Record dinv (d : dstr) (bs : list Z) : Prop := DI {
  di_shape : (d_chain d = [] /\ bs = c_data (d_init d) /\ d_cur d = length (c_data (d_init d)) /\ d_end d = c_cap (d_init d))
     \/ (exists pre c, d_chain d = pre ++ [c] /\ chunk_done (d_init d) /\ Forall chunk_done pre /\ bs = c_data (d_init d) ++ cdata pre ++ c_data c /\ d_cur d = length (c_data c) /\ d_end d = c_cap c);
  di_bytes : Forall is_byte bs;
  di_len : (0 <= d_len d)%Z -> exists cs, encodes_all cs bs /\ d_len d = Z.of_nat (length cs) }.
Lemma cdata_app l1 l2 : cdata (l1 ++ l2) = cdata l1 ++ cdata l2. Proof. unfold cdata. now rewrite map_app, concat_app. Qed.
Lemma dinv_init : dinv dstr_init [].
Proof. constructor; [left; auto|constructor|]. intros _. exists []. split; [constructor|reflexivity]. Qed.
Lemma dinv_sync d bs : dinv d bs -> dinv (sync_bytes d) bs /\ (match d_chain (sync_bytes d) with [] => chunk_done (d_init (sync_bytes d)) | l => chunk_done (d_init (sync_bytes d)) /\ Forall chunk_done l end)
  /\ d_chain (sync_bytes d) = map_last (set_bytes (d_cur d)) (d_chain d).
Proof.
  intros [Sh By Le]. unfold sync_bytes. destruct Sh as [(E & Eb & Ec & Ee)|(pre & c & E & Hi & Hp & Eb & Ec & Ee)]; rewrite E.
  - cbn [map_last]. split; [|split; [unfold chunk_done; cbn; auto|reflexivity]]. constructor; auto.
  - destruct (pre ++ [c]) as [|x l] eqn:El; [destruct pre; discriminate|]. rewrite <- El. rewrite map_last_app. cbn [d_chain d_init].
    split; [|split; [|reflexivity]].
    + constructor; auto. right. exists pre, (set_bytes (d_cur d) c). cbn. auto 10.
    + destruct (pre ++ [set_bytes (d_cur d) c]) eqn:E2; [destruct pre; discriminate|]. rewrite <- E2. split; auto. apply Forall_app. split; auto.
Qed.
Lemma dinv_room d bs n : dinv d bs -> dinv (dstr_room d n) bs /\ d_cur (dstr_room d n) + n <= d_end (dstr_room d n) /\ d_len (dstr_room d n) = d_len d.
Proof.
  intros I. unfold dstr_room. destruct (Nat.ltb_spec (d_end d) (d_cur d + n)) as [L|L]; [|auto]. destruct (dinv_sync d bs I) as (I' & Dn & _). unfold dstr_realloc. cbn [d_cur d_end d_len].
  split; [|split; [lia|unfold sync_bytes; destruct (d_chain d); reflexivity]]. destruct I' as [Sh By Le]. constructor; auto. right. exists (d_chain (sync_bytes d)). eexists. cbn [d_chain d_init]. split; [reflexivity|].
  cbn [c_data length d_cur d_end c_cap]. rewrite app_nil_r. destruct Sh as [(E & Eb & Ec & Ee)|(pre & c & E & Hi & Hp & Eb & Ec & Ee)].
  - rewrite E in *. unfold cdata. cbn [map concat]. rewrite app_nil_r. auto.
  - rewrite E in *. destruct (pre ++ [c]) eqn:El; [destruct pre; discriminate|]. rewrite <- El in *. destruct Dn as (D1 & D2). rewrite cdata_app. unfold cdata at 2. cbn [map concat]. rewrite app_nil_r. auto.
Qed.
Lemma dinv_store d bs s l : dinv d bs -> d_cur d + length s <= d_end d -> Forall is_byte s -> ((0 <= l)%Z -> exists cs, encodes_all cs (bs ++ s) /\ l = Z.of_nat (length cs)) ->
  exists d', dstr_store d s = Ok d' /\ dinv (set_len d' l) (bs ++ s) /\ d_len d' = d_len d.
Proof.
  intros [Sh By Le] Hl Hs Hlen. unfold dstr_store. assert (Store : forall c, d_cur d = length (c_data c) -> c_data (chunk_store c (d_cur d) s) = c_data c ++ s).
  { intros c E. unfold chunk_store. cbn [c_data]. rewrite E, firstn_all, skipn_all2 by lia. now rewrite app_nil_r. }
  destruct Sh as [(E & Eb & Ec & Ee)|(pre & c & E & Hi & Hp & Eb & Ec & Ee)]; rewrite E.
  - cbn [rev]. rewrite <- Ee. apply Nat.leb_le in Hl as ->. eexists. split; [reflexivity|]. split; [|reflexivity]. constructor; [left|now apply Forall_app|exact Hlen]. cbn [set_len d_chain d_init d_cur d_end]. rewrite Store by auto. rewrite app_length. subst bs. auto 10.
  - rewrite rev_app_distr. cbn [rev app]. rewrite <- Ee. apply Nat.leb_le in Hl as ->. destruct (pre ++ [c]) eqn:El; [destruct pre; discriminate|]. rewrite <- El. rewrite map_last_app. eexists. split; [reflexivity|]. split; [|reflexivity].
    constructor; [right|now apply Forall_app|exact Hlen]. exists pre. eexists. cbn [set_len d_chain d_init d_cur d_end]. split; [reflexivity|]. rewrite Store by auto. rewrite app_length. subst bs. rewrite <- !app_assoc. auto 10.
Qed.
Lemma dinv_len d bs l : dinv d bs -> ((0 <= l)%Z -> exists cs, encodes_all cs bs /\ l = Z.of_nat (length cs)) -> dinv (set_len d l) bs.
Proof. intros [Sh By Le] H. constructor; auto. Qed.
Lemma set_len_same d : set_len d (d_len d) = d. Proof. destruct d; reflexivity. Qed.
Lemma set_len_twice d a b : set_len (set_len d a) b = set_len d b. Proof. reflexivity. Qed.
Lemma dstr_putb_ok d bs b : dinv d bs -> is_byte b -> exists d', dstr_putb d b = Ok d' /\ dinv d' (bs ++ [b]).
Proof.
  intros I Hb. unfold dstr_putb. destruct (dinv_room d bs 1 I) as (I1 & L1 & _). destruct (dinv_store _ bs [b] (-1) I1) as (d' & E & I' & _); auto; [lia|]. rewrite E. cbn [bind]. eauto.
Qed.
(** appending what is known to be characters, or anything when the length is unknown *)
Lemma dstr_known d bs s cs n : dinv d bs -> Forall is_byte s -> encodes_all cs s -> n = length s ->
  exists d1, dstr_store (dstr_room d n) s = Ok d1 /\ dinv (if (0 <=? d_len d1)%Z then set_len d1 (d_len d1 + Z.of_nat (length cs)) else d1) (bs ++ s) /\ dinv (set_len d1 (if (0 <=? d_len d1)%Z then d_len d1 + Z.of_nat (length cs) else -1)) (bs ++ s) /\ d_len d1 = d_len d.
Proof.
  intros I Hs Hc ->. destruct (dinv_room d bs (length s) I) as (I1 & L1 & El). destruct (dinv_store _ bs s (if (0 <=? d_len d)%Z then d_len d + Z.of_nat (length cs) else -1)%Z I1 L1 Hs) as (d' & E & I' & E').
  { destruct (Z.leb_spec 0 (d_len d)) as [L|L]; [|lia]. intros _. destruct (di_len _ _ I L) as (cs0 & E0 & ->). exists (cs0 ++ cs). split; [now apply encodes_all_app|]. rewrite app_length. lia. }
  exists d'. rewrite E', El. split; auto. split; [|split; [auto|reflexivity]]. destruct (Z.leb_spec 0 (d_len d)) as [L|L]; auto.
  rewrite <- (set_len_same d'). rewrite <- (set_len_twice d' (-1)%Z). apply dinv_len; auto. rewrite E', El. lia.
Qed.
Lemma dstr_putc_ok d bs c : dinv d bs -> valid_char c -> exists d', dstr_putc d c = Ok d' /\ dinv d' (bs ++ char_put c).
Proof.
  intros I V. unfold dstr_putc. assert (By : Forall is_byte (char_put c)) by (rewrite char_put_putc by (destruct V; auto); now apply putc_bytes).
  assert (Ln : Z.to_nat (nbytes c) = length (char_put c)) by (rewrite char_put_putc by (destruct V; auto); pose proof (putc_length c V); lia).
  assert (Ec : encodes_all [c] (char_put c)) by (rewrite <- (app_nil_r (char_put c)); constructor; [auto|now apply putc_encodes|constructor]).
  destruct (dstr_known d bs (char_put c) [c] _ I By Ec Ln) as (d1 & -> & I1 & _). cbn [bind]. eexists. split; [reflexivity|exact I1].
Qed.
Lemma dstr_add_ok d bs cs : dinv d bs -> Forall valid_char cs -> exists d', dstr_add d (bytes_of cs) (length cs) = Ok d' /\ dinv d' (bs ++ bytes_of cs).
Proof.
  intros I V. unfold dstr_add. destruct (Nat.eqb_spec (length (bytes_of cs)) 0) as [E|N].
  - exists d. split; auto. destruct (bytes_of cs); [|discriminate]. now rewrite app_nil_r.
  - assert (By : Forall is_byte (bytes_of cs)). { clear - V. unfold bytes_of. induction V as [|c cs Vc V IH]; cbn [map concat]; [constructor|]. apply Forall_app. split; auto. rewrite char_put_putc by (destruct Vc; auto). now apply putc_bytes. }
    destruct (dstr_known d bs (bytes_of cs) cs _ I By (all_bytes_of cs V) eq_refl) as (d1 & -> & _ & I1 & _). cbn [bind]. eauto.
Qed.
Lemma dstr_putz_ok d bs s : dinv d bs -> Forall is_byte s -> exists d', dstr_putz d s = Ok d' /\ dinv d' (bs ++ s).
Proof.
  intros I Hs. unfold dstr_putz. destruct (dinv_room d bs (length s) I) as (I1 & L1 & El). destruct (count_length_ok s Hs) as [(cs & Ec & E)|(N & E)].
  - destruct (dstr_known d bs s cs _ I Hs Ec eq_refl) as (d1 & -> & I2 & _ & _). cbn [bind]. destruct (0 <=? d_len d1)%Z; [rewrite E; cbn [bind]|]; eauto.
  - destruct (dinv_store _ bs s (-1) I1 L1 Hs) as (d' & E1 & I' & E'); [lia|]. rewrite E1. cbn [bind]. destruct (Z.leb_spec 0 (d_len d')) as [L|L].
    + rewrite E. cbn [bind]. eauto.
    + eexists. split; [reflexivity|]. rewrite <- (set_len_same d'). rewrite <- (set_len_twice d' (-1)%Z). apply dinv_len; auto. lia.
Qed.
Lemma chunks_get_ok l : Forall chunk_done l -> chunks_get l = Ok (cdata l).
Proof. induction 1 as [|c l Hc Hl IH]; [reflexivity|]. cbn [chunks_get]. unfold chunk_get. rewrite Hc, Nat.leb_refl, firstn_all. cbn [bind]. rewrite IH. reflexivity. Qed.
Lemma dstr_size_ok d bs : dinv d bs -> exists d', dstr_size d = (d', length bs) /\ dinv d' bs.
Proof.
  intros I. destruct (dinv_sync d bs I) as (I' & Dn & _). unfold dstr_size. exists (sync_bytes d). split; auto. f_equal. destruct I' as [Sh _ _]. destruct Sh as [(E & Eb & Ec & Ee)|(pre & c & E & Hi & Hp & Eb & Ec & Ee)]; rewrite E in *.
  - cbn [fold_right]. unfold chunk_done in Dn. rewrite Dn, Eb. lia.
  - destruct (pre ++ [c]) eqn:El; [destruct pre; discriminate|]. rewrite <- El in *. destruct Dn as (D1 & D2). unfold chunk_done in D1. rewrite D1, Eb, app_length. f_equal.
    replace (cdata pre ++ c_data c) with (cdata (pre ++ [c])) by (rewrite cdata_app; unfold cdata at 2; cbn [map concat]; now rewrite app_nil_r). clear - D2. induction D2 as [|x l Hx Hl IH]; cbn [fold_right]; [reflexivity|]. unfold cdata. cbn [map concat]. rewrite app_length, IH. unfold chunk_done in Hx. unfold cdata. lia.
Qed.
Lemma dstr_get_ok d bs : dinv d bs -> exists d' len, dstr_get d = Ok (d', bs, len) /\ dinv d' bs /\ ((exists cs, encodes_all cs bs /\ len = Some (length cs)) \/ ((forall cs, ~ encodes_all cs bs) /\ len = None)).
Proof.
  intros I. unfold dstr_get.
  assert (X : exists d', match d_chain d with [] => if d_cur d <=? length (c_data (d_init d)) then Ok (d, firstn (d_cur d) (c_data (d_init d))) else UB
      | _ :: _ => let d1 := fst (dstr_size d) in do a <- chunk_get (d_init d1); do b <- chunks_get (d_chain d1); Ok (d1, a ++ b) end = Ok (d', bs) /\ dinv d' bs).
  { pose proof I as [Sh By Le]. destruct Sh as [(E & Eb & Ec & Ee)|(pre & c & E & Hi & Hp & Eb & Ec & Ee)].
    - rewrite E, Ec, Nat.leb_refl, firstn_all, <- Eb. eauto.
    - rewrite E. destruct (pre ++ [c]) eqn:El; [destruct pre; discriminate|]. unfold dstr_size. cbn [fst]. cbv zeta. destruct (dinv_sync d bs I) as (I' & Dn & Ech). exists (sync_bytes d).
      rewrite Ech, E, <- El, map_last_app in *. destruct (pre ++ [set_bytes (d_cur d) c]) eqn:E2; [destruct pre; discriminate|]. rewrite <- E2 in *. destruct Dn as (D1 & D2). unfold chunk_get. rewrite D1, Nat.leb_refl, firstn_all. cbn [bind]. rewrite chunks_get_ok by auto. cbn [bind]. split; auto. f_equal. f_equal.
      rewrite cdata_app. unfold cdata at 2. cbn [map concat set_bytes c_data]. rewrite app_nil_r, Eb. f_equal. unfold sync_bytes. rewrite E. destruct (pre ++ [c]); reflexivity. }
  cbv zeta in X. destruct X as (d' & -> & I'). cbn [bind fst snd]. exists d'. pose proof I' as [_ By Le]. destruct (Z.ltb_spec (d_len d') 0) as [L|L].
  - destruct (count_length_ok bs By) as [(cs & Ec & ->)|(N & ->)]; cbn [bind]; eexists; (split; [reflexivity|]); split; auto. left. eauto.
  - cbn [bind]. eexists. split; [reflexivity|]. split; auto. left. destruct (Le L) as (cs & Ec & ->). exists cs. rewrite Nat2Z.id. auto.
Qed.
Lemma str_step_ok d bs o : dinv d bs -> sallowed o -> exists d' a bs', str_step d o = Ok (d', a) /\ sstep bs o a bs' /\ dinv d' bs'.
Proof.
  intros I Al. destruct o as [b|c|cs|e| |]; cbn [str_step sallowed] in *.
  - destruct (dstr_putb_ok d bs b I Al) as (d' & -> & I'). cbn [bind]. exists d', SUnit. eexists. split; [reflexivity|]. split; [constructor|eassumption].
  - destruct (dstr_putc_ok d bs c I Al) as (d' & -> & I'). cbn [bind]. exists d', SUnit. eexists. split; [reflexivity|]. split; [|eassumption]. constructor. now apply putc_encodes.
  - destruct (dstr_add_ok d bs cs I Al) as (d' & -> & I'). cbn [bind]. exists d', SUnit. eexists. split; [reflexivity|]. split; [|eassumption]. constructor. now apply all_bytes_of.
  - destruct (dstr_putz_ok d bs e I Al) as (d' & -> & I'). cbn [bind]. exists d', SUnit. eexists. split; [reflexivity|]. split; [constructor|eassumption].
  - destruct (dstr_size_ok d bs I) as (d' & -> & I'). cbn [fst snd]. exists d'. eexists. eexists. split; [reflexivity|]. split; [constructor|eassumption].
  - destruct (dstr_get_ok d bs I) as (d' & len & -> & I' & [(cs & Ec & ->)|(N & ->)]); cbn [bind fst snd]; exists d'; eexists; eexists; (split; [reflexivity|]); (split; [|eassumption]); now constructor.
Qed.
Lemma str_run_ok : forall ops d bs, dinv d bs -> sconforms bs ops (str_run d ops).
Proof. induction ops as [|o ops IH]; intros d bs I; cbn [str_run sconforms]; auto. intros Al. destruct (str_step_ok d bs o I Al) as (d' & a & bs' & -> & St & I'). cbn [fst snd]. eauto. Qed.
