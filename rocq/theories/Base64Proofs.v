From Coq Require Import List Bool ZArith Lia PeanoNat.
From Verif Require Import Outcome Base64Model Base64Spec.
Import ListNotations.
Local Open Scope Z_scope.
Ltac Zify.zify_post_hook ::= Z.to_euclidean_division_equations.

(* ---------- bit operations as arithmetic ---------- *)
Lemma sl k x : 0 <= k -> Z.shiftl x k = x * 2 ^ k. Proof. apply Z.shiftl_mul_pow2. Qed.
Lemma sr k x : 0 <= k -> Z.shiftr x k = x / 2 ^ k. Proof. apply Z.shiftr_div_pow2. Qed.
Lemma l1 x : Z.land x 1 = x mod 2. Proof. exact (Z.land_ones x 1 ltac:(lia)). Qed.
Lemma l3 x : Z.land x 3 = x mod 4. Proof. exact (Z.land_ones x 2 ltac:(lia)). Qed.
Lemma l7 x : Z.land x 7 = x mod 8. Proof. exact (Z.land_ones x 3 ltac:(lia)). Qed.
Lemma l15 x : Z.land x 15 = x mod 16. Proof. exact (Z.land_ones x 4 ltac:(lia)). Qed.
Lemma l31 x : Z.land x 31 = x mod 32. Proof. exact (Z.land_ones x 5 ltac:(lia)). Qed.
Lemma l63 x : Z.land x 63 = x mod 64. Proof. exact (Z.land_ones x 6 ltac:(lia)). Qed.
Ltac bits := rewrite ?sl, ?sr, ?l1, ?l3, ?l7, ?l15, ?l31, ?l63 by lia;
  change (2 ^ 1) with 2; change (2 ^ 2) with 4; change (2 ^ 3) with 8; change (2 ^ 4) with 16;
  change (2 ^ 5) with 32; change (2 ^ 6) with 64; change (2 ^ 7) with 128.
Ltac basen := cbn [to_base from_base fold_left firstn skipn Z.of_nat Pos.of_succ_nat Pos.succ];
  repeat match goal with |- context [?a ^ ?b] => let v := eval compute in (a ^ b) in change (a ^ b) with v end;
  rewrite ?Z.div_1_r.

(* ---------- line breaking ---------- *)
Section Emit.
Context (t : list Z) (mc : option Z).
Lemma emit_app l1 l2 col : fst (emit t mc col (l1 ++ l2)) = fst (emit t mc col l1) ++ fst (emit t mc (snd (emit t mc col l1)) l2).
Proof.
  revert col. induction l1 as [|i r IH]; intros; cbn [emit app]; [reflexivity|].
  set (nl := match mc with Some m => col =? m | None => false end).
  specialize (IH (if nl then 0 else col + 1)).
  destruct (emit t mc _ (r ++ l2)); destruct (emit t mc _ r) eqn:?; cbn [fst snd] in *. rewrite IH, app_assoc. reflexivity.
Qed.
Lemma emit_let {A} l col (f : Z -> list A) (g : list Z -> list A) :
  (let '(o, c) := emit t mc col l in g o ++ f c) = g (fst (emit t mc col l)) ++ f (snd (emit t mc col l)).
Proof. destruct (emit t mc col l); reflexivity. Qed.
End Emit.
Lemma emit_none t l col : fst (emit t None col l) = map (tget t) l.
Proof. revert col. induction l as [|i r IH]; intros; cbn [emit map]; [reflexivity|]. specialize (IH (col + 1)). destruct (emit t None _ r); cbn [fst] in *. now rewrite IH. Qed.
Lemma emit_break t w l col : 0 <= col < w -> fst (emit t (Some (w - 1)) col l) = break_lines w (w - col) (map (tget t) l).
Proof.
  revert col. induction l as [|i r IH]; intros col H; cbn [emit map break_lines]; [reflexivity|].
  destruct (Z.eqb_spec col (w - 1)), (Z.eqb_spec (w - col) 1); try lia.
  - specialize (IH 0 ltac:(lia)). rewrite Z.sub_0_r in IH. destruct (emit t _ 0 r); cbn [fst app] in *. now rewrite IH.
  - specialize (IH (col + 1) ltac:(lia)). destruct (emit t _ (col + 1) r); cbn [fst app] in *. rewrite IH. do 2 f_equal; lia.
Qed.
Lemma emit_wrapped t lw l : fst (emit t (maxcol_of lw) 0 l) = wrapped lw (map (tget t) l).
Proof.
  destruct lw as [w|]; cbn [maxcol_of wrapped]; [|apply emit_none].
  destruct (Z.ltb_spec 0 w); [|apply emit_none].
  rewrite emit_break by lia. now rewrite Z.sub_0_r.
Qed.

(* ---------- base64 encoder ---------- *)
Fixpoint idx64 (omit : bool) (bs : list Z) : list Z :=
  match bs with
  | [] => []
  | [a] => firstn 2 (to_base 64 4 (from_base 256 [a; 0; 0])) ++ (if omit then [] else [64; 64])
  | [a; b] => firstn 3 (to_base 64 4 (from_base 256 [a; b; 0])) ++ (if omit then [] else [64])
  | a :: b :: c :: r => to_base 64 4 (from_base 256 [a; b; c]) ++ idx64 omit r
  end.
Section Enc64.
Context (t : list Z) (mc : option Z) (omit : bool).
Lemma list3_ind (P : list Z -> Prop) : P [] -> (forall a, P [a]) -> (forall a b, P [a; b]) -> (forall a b c r, P r -> P (a :: b :: c :: r)) -> forall l, P l.
Proof.
  intros H0 H1 H2 H3.
  assert (A : forall l, P l /\ (forall a, P (a :: l)) /\ (forall a b, P (a :: b :: l))).
  { induction l as [|x r (A & B & C)]; repeat split; intros; auto. }
  intros l. apply A.
Qed.
Ltac emits :=
  repeat match goal with |- context [let '(o, c) := emit ?t ?mc ?col ?l in o ++ _] =>
    rewrite (emit_let t mc l col _ (fun o => o)); cbn beta end.
Lemma e64_emit bs col : Forall is_byte bs -> e64_0 t mc omit bs col = fst (emit t mc col (idx64 omit bs)).
Proof.
  revert col. induction bs as [|a|a b|a b c r IH] using list3_ind; intros col H.
  - reflexivity.
  - cbn [e64_0 e64_1]. emits. inversion_clear H. unfold is_byte in *.
    transitivity (fst (emit t mc col ([Z.shiftr a 2] ++ [Z.shiftl (Z.land a 3) 4] ++ if omit then [] else [64; 64]))).
    { rewrite emit_app, emit_app. destruct omit; cbn [emit fst]; reflexivity. }
    do 2 f_equal. cbn [idx64]. bits. basen. cbn [app]. f_equal; [lia|f_equal; lia].
  - cbn [e64_0 e64_1 e64_2]. emits. inversion_clear H. inversion_clear H1. unfold is_byte in *.
    transitivity (fst (emit t mc col ([Z.shiftr a 2] ++ [Z.shiftl (Z.land a 3) 4 + Z.shiftr b 4] ++ [Z.shiftl (Z.land b 15) 2] ++ if omit then [] else [64]))).
    { rewrite !emit_app. destruct omit; cbn [emit fst]; reflexivity. }
    do 2 f_equal. cbn [idx64]. bits. basen. cbn [app]. f_equal; [lia|f_equal; [lia|f_equal; lia]].
  - cbn [e64_0 e64_1 e64_2]. emits. inversion_clear H. inversion_clear H1. inversion_clear H2. unfold is_byte in *.
    rewrite IH by assumption.
    transitivity (fst (emit t mc col ([Z.shiftr a 2] ++ [Z.shiftl (Z.land a 3) 4 + Z.shiftr b 4] ++ [Z.shiftl (Z.land b 15) 2 + Z.shiftr c 6; Z.land c 63] ++ idx64 omit r))).
    { rewrite !emit_app. reflexivity. }
    do 2 f_equal. cbn [idx64]. bits. basen. cbn [app].
    f_equal; [lia|f_equal; [lia|f_equal; [lia|f_equal; lia]]].
Qed.
Lemma in_to_base b n x v : 0 < b -> In v (to_base b n x) -> 0 <= v < b.
Proof. intros Hb. induction n; cbn [to_base]; intros [<-|H] || intros []; auto. apply Z.mod_pos_bound; lia. Qed.
Lemma in_firstn {A} n (l : list A) v : In v (firstn n l) -> In v l.
Proof. intros H. rewrite <- (firstn_skipn n l). apply in_or_app. now left. Qed.
Lemma map_digit alpha l : (forall v, 0 <= v < 64 -> tget t v = digit alpha v) -> (forall v, In v l -> 0 <= v < 64) -> map (tget t) l = map (digit alpha) l.
Proof. intros H. induction l; intros Hl; cbn [map]; [reflexivity|]. rewrite H, IHl by (intros; apply Hl; cbn; auto). reflexivity. Qed.
Lemma idx64_rfc alpha bs : (forall v, 0 <= v < 64 -> tget t v = digit alpha v) -> tget t 64 = pad ->
  map (tget t) (idx64 omit bs) = rfc64 alpha (negb omit) bs.
Proof.
  intros H Hp. induction bs as [|a|a b|a b c r IH] using list3_ind; cbn [idx64 rfc64]; rewrite ?map_app.
  - reflexivity.
  - rewrite (map_digit alpha); auto. 2: { intros v Hv. eapply in_to_base; [|eapply in_firstn, Hv]. lia. }
    f_equal. destruct omit; cbn [map negb]; now rewrite ?Hp.
  - rewrite (map_digit alpha); auto. 2: { intros v Hv. eapply in_to_base; [|eapply in_firstn, Hv]. lia. }
    f_equal. destruct omit; cbn [map negb]; now rewrite ?Hp.
  - rewrite (map_digit alpha); auto. 2: { intros v Hv. eapply in_to_base; [|exact Hv]. lia. }
    now rewrite IH.
Qed.
End Enc64.

(* ---------- base64 decoder ---------- *)
Lemma q64 a b c d : 0 <= a < 64 -> 0 <= b < 64 -> 0 <= c < 64 -> 0 <= d < 64 ->
  to_base 256 3 (from_base 64 [a; b; c; d]) = [a * 4 + b / 16; b mod 16 * 16 + c / 4; c mod 4 * 64 + d].
Proof. intros. basen. repeat (f_equal; try lia). Qed.
Section Dec64.
Context (t : list (option Z)) (strict : bool) (ws : Z -> bool).
Let val := lookup t.
Context (Hval : forall c v, val c = Some v -> 0 <= v < 64).
(** reading with n digits pending goes wrong in strict mode *)
Fixpoint wrong (group n : nat) (s : list Z) : bool :=
  match s with
  | [] => negb (n =? 0)%nat
  | c :: r => if c =? 61 then false else
    match val c with
    | Some _ => wrong group (if (S n =? group)%nat then 0%nat else S n) r
    | None => if ws c then wrong group n r else true
    end
  end.
Definition outcome (w : bool) (l : list Z) : res (list Z) := if strict && w then Err else Ok l.
Lemma emit_outcome b w l : emit_byte b (outcome w l) = outcome w (b :: l).
Proof. unfold outcome. destruct (strict && w); reflexivity. Qed.
Lemma premature_outcome n : n <> 0%nat -> premature strict = outcome (negb (n =? 0)%nat) [].
Proof. intros H. apply Nat.eqb_neq in H. unfold premature, outcome. rewrite H. destruct strict; reflexivity. Qed.
Definition vb (s : list Z) := values val (before_pad s).
Lemma vb_cons c r : vb (c :: r) = if c =? 61 then [] else match val c with Some v => v :: vb r | None => vb r end.
Proof. unfold vb. cbn [before_pad]. unfold pad. destruct (c =? 61); [reflexivity|]. unfold values. cbn [flat_map]. destruct (val c); reflexivity. Qed.
Lemma bad_outcome c X Y : val c = None -> (if bad strict ws c then Err else outcome X Y) = outcome (if ws c then X else true) Y.
Proof. intros _. unfold bad, outcome. destruct strict, (ws c); cbn; try reflexivity. Qed.

Lemma vb_range s v : In v (vb s) -> 0 <= v < 64.
Proof. unfold vb, values. rewrite in_flat_map. intros (c & _ & H). destruct (val c) eqn:E; [|easy]. destruct H as [<-|[]]. eauto. Qed.
Notation rng x := (0 <= x < 64).
Ltac rngs s := pose proof (vb_range s) as Hvb.
Lemma b64_1 c0 c1 l : rng c0 -> rng c1 -> (forall v, In v l -> rng v) ->
  bytes64 (c0 :: c1 :: l) = (c0 * 4 + c1 / 16) :: skipn 1 (bytes64 (c0 :: c1 :: l)).
Proof.
  intros A B H. destruct l as [|c [|d r]]; cbn [bytes64]; rewrite q64; try reflexivity; try lia; apply H; cbn; auto.
Qed.
Lemma b64_2 c0 c1 c2 l : rng c0 -> rng c1 -> rng c2 -> (forall v, In v l -> rng v) ->
  skipn 1 (bytes64 (c0 :: c1 :: c2 :: l)) = (c1 mod 16 * 16 + c2 / 4) :: skipn 2 (bytes64 (c0 :: c1 :: c2 :: l)).
Proof.
  intros A B C H. destruct l as [|d r]; cbn [bytes64]; rewrite q64; try reflexivity; try lia; apply H; cbn; auto.
Qed.
Lemma b64_3 c0 c1 c2 c3 l : rng c0 -> rng c1 -> rng c2 -> rng c3 ->
  skipn 2 (bytes64 (c0 :: c1 :: c2 :: c3 :: l)) = (c2 mod 4 * 64 + c3) :: bytes64 l.
Proof. intros. cbn [bytes64]. rewrite q64; try lia. reflexivity. Qed.
Lemma step64 c r :
  d64_0 t strict ws (c :: r) = (if c =? 61 then Ok [] else match val c with Some v => d64_1 t strict ws v r | None => if bad strict ws c then Err else d64_0 t strict ws r end) /\
  (forall p, d64_1 t strict ws p (c :: r) = if c =? 61 then Ok [] else match val c with Some v => emit_byte (Z.shiftl p 2 + Z.shiftr v 4) (d64_2 t strict ws (Z.land v 15) r) | None => if bad strict ws c then Err else d64_1 t strict ws p r end) /\
  (forall p, d64_2 t strict ws p (c :: r) = if c =? 61 then Ok [] else match val c with Some v => emit_byte (Z.shiftl p 4 + Z.shiftr v 2) (d64_3 t strict ws (Z.land v 3) r) | None => if bad strict ws c then Err else d64_2 t strict ws p r end) /\
  (forall p, d64_3 t strict ws p (c :: r) = if c =? 61 then Ok [] else match val c with Some v => emit_byte (Z.shiftl p 6 + v) (d64_0 t strict ws r) | None => if bad strict ws c then Err else d64_3 t strict ws p r end).
Proof. repeat split; reflexivity. Qed.
Lemma d64_spec s :
  d64_0 t strict ws s = outcome (wrong 4 0 s) (bytes64 (vb s)) /\
  (forall c0, rng c0 -> d64_1 t strict ws c0 s = outcome (wrong 4 1 s) (bytes64 (c0 :: vb s))) /\
  (forall c0 c1, rng c0 -> rng c1 -> d64_2 t strict ws (Z.land c1 15) s = outcome (wrong 4 2 s) (skipn 1 (bytes64 (c0 :: c1 :: vb s)))) /\
  (forall c0 c1 c2, rng c0 -> rng c1 -> rng c2 -> d64_3 t strict ws (Z.land c2 3) s = outcome (wrong 4 3 s) (skipn 2 (bytes64 (c0 :: c1 :: c2 :: vb s)))).
Proof.
  assert (Hno : forall l, outcome false l = Ok l) by (intros; unfold outcome; now rewrite andb_false_r).
  induction s as [|c r (I0 & I1 & I2 & I3)].
  - unfold vb. cbn [d64_0 d64_1 d64_2 d64_3 before_pad values flat_map wrong Nat.eqb negb]. repeat split; intros.
    + now rewrite Hno.
    + apply premature_outcome with (n := 1%nat); lia.
    + cbn [bytes64]. rewrite q64 by lia. apply premature_outcome with (n := 2%nat); lia.
    + cbn [bytes64]. rewrite q64 by lia. apply premature_outcome with (n := 3%nat); lia.
  - rewrite vb_cons. cbn [wrong Nat.eqb]. destruct (step64 c r) as (S0 & S1 & S2 & S3). setoid_rewrite S0. setoid_rewrite S1. setoid_rewrite S2. setoid_rewrite S3. clear S0 S1 S2 S3.
    destruct (c =? 61).
    { repeat split; intros; rewrite Hno; cbn [bytes64]; rewrite ?q64 by lia; reflexivity. }
    destruct (val c) as [v|] eqn:E.
    + pose proof (Hval _ _ E) as Hv. pose proof (vb_range r) as Hr. repeat split.
      * apply I1, Hv.
      * intros c0 H0. rewrite (I2 c0 v H0 Hv), emit_outcome. bits. now rewrite <- b64_1 by auto.
      * intros c0 c1 H0 H1. rewrite (I3 c0 c1 v H0 H1 Hv), emit_outcome. bits. now rewrite <- b64_2 by auto.
      * intros c0 c1 c2 H0 H1 H2. rewrite I0, emit_outcome. bits. now rewrite <- (b64_3 c0 c1 c2 v) by auto.
    + repeat split; intros.
      * rewrite I0. now apply bad_outcome.
      * rewrite I1 by auto. now apply bad_outcome.
      * rewrite (I2 c0 c1) by auto. now apply bad_outcome.
      * rewrite (I3 c0 c1 c2) by auto. now apply bad_outcome.
Qed.
Lemma wrong_spec g s : (1 < g)%nat -> forall n, (n < g)%nat ->
  wrong g n s = false <-> (no_noise val ws (before_pad s) /\ (In pad s \/ ((n + List.length (values val s)) mod g = 0)%nat)).
Proof.
  clear Hval. intros Hg. induction s as [|c r IH]; intros n Hn; cbn [wrong before_pad].
  - rewrite negb_false_iff, Nat.eqb_eq. cbn [values flat_map List.length]. rewrite Nat.add_0_r, Nat.mod_small by lia.
    split; [intros ->; split; [intros ? []|now right]|intros [_ [[]|H]]; exact H].
  - unfold pad at 1. destruct (Z.eqb_spec c 61) as [->|N].
    { split; [|easy]. intros _. split; [intros ? []|left; now left]. }
    assert (HP : In pad (c :: r) <-> In pad r) by (cbn [In]; unfold pad; intuition congruence).
    rewrite HP.
    assert (HV : values val (c :: r) = match val c with Some v => v :: values val r | None => values val r end).
    { unfold values. cbn [flat_map]. destruct (val c); reflexivity. }
    rewrite HV. destruct (val c) as [v|] eqn:E.
    + set (n' := if (S n =? g)%nat then 0%nat else S n).
      assert (Hn' : (n' < g)%nat) by (unfold n'; destruct (Nat.eqb_spec (S n) g); lia).
      rewrite (IH n' Hn').
      assert (((n + List.length (v :: values val r)) mod g = (n' + List.length (values val r)) mod g)%nat) as ->.
      { cbn [List.length]. unfold n'. destruct (Nat.eqb_spec (S n) g) as [e|e].
        - replace (n + S (List.length (values val r)))%nat with (List.length (values val r) + 1 * g)%nat by lia.
          rewrite Nat.mod_add by lia. f_equal.
        - f_equal; lia. }
      assert (no_noise val ws (before_pad r) <-> no_noise val ws (c :: before_pad r)) as ->; [|reflexivity].
      unfold no_noise. split; intros H x; [intros [<-|Hx] Hn0; [congruence|auto]|intros Hx; apply H; now right].
    + destruct (ws c) eqn:W.
      * rewrite (IH n Hn).
        assert (no_noise val ws (before_pad r) <-> no_noise val ws (c :: before_pad r)) as ->; [|reflexivity].
        unfold no_noise. split; intros H x; [intros [<-|Hx] Hn0; [congruence|auto]|intros Hx; apply H; now right].
      * split; [easy|]. intros [H _]. specialize (H c (or_introl eq_refl) E). congruence.
Qed.
End Dec64.

(* ---------- base32 encoder ---------- *)
Lemma p32 a b c d e : is_byte a -> is_byte b -> is_byte c -> is_byte d -> is_byte e ->
  to_base 32 8 (from_base 256 [a; b; c; d; e]) =
  [a / 8; a mod 8 * 4 + b / 64; b / 2 mod 32; b mod 2 * 16 + c / 16; c mod 16 * 2 + d / 128; d / 4 mod 32; d mod 4 * 8 + e / 32; e mod 32].
Proof. unfold is_byte. intros. basen. repeat (apply (f_equal2 cons); [lia|]). reflexivity. Qed.
Fixpoint idx32 (omit : bool) (bs : list Z) : list Z :=
  match bs with
  | [] => []
  | [a] => firstn 2 (to_base 32 8 (from_base 256 [a; 0; 0; 0; 0])) ++ (if omit then [] else repeat 32 6)
  | [a; b] => firstn 4 (to_base 32 8 (from_base 256 [a; b; 0; 0; 0])) ++ (if omit then [] else repeat 32 4)
  | [a; b; c] => firstn 5 (to_base 32 8 (from_base 256 [a; b; c; 0; 0])) ++ (if omit then [] else repeat 32 3)
  | [a; b; c; d] => firstn 7 (to_base 32 8 (from_base 256 [a; b; c; d; 0])) ++ (if omit then [] else [32])
  | a :: b :: c :: d :: e :: r => to_base 32 8 (from_base 256 [a; b; c; d; e]) ++ idx32 omit r
  end.
Lemma list5_ind (P : list Z -> Prop) : P [] -> (forall a, P [a]) -> (forall a b, P [a; b]) -> (forall a b c, P [a; b; c]) ->
  (forall a b c d, P [a; b; c; d]) -> (forall a b c d e r, P r -> P (a :: b :: c :: d :: e :: r)) -> forall l, P l.
Proof.
  intros H0 H1 H2 H3 H4 H5.
  assert (A : forall l, P l /\ (forall a, P (a :: l)) /\ (forall a b, P (a :: b :: l)) /\ (forall a b c, P (a :: b :: c :: l)) /\ (forall a b c d, P (a :: b :: c :: d :: l))).
  { induction l as [|x r (A & B & C & D & E)]; repeat split; intros; auto. }
  intros l. apply A.
Qed.
Section Enc32.
Context (t : list Z) (mc : option Z) (omit : bool).
Ltac emits :=
  repeat match goal with |- context [let '(o, c) := emit ?t ?mc ?col ?l in o ++ _] =>
    rewrite (emit_let t mc l col _ (fun o => o)); cbn beta end.
Ltac inv H := repeat match type of H with Forall _ (_ :: _) => inversion_clear H as [|? ? ? H'];  rename H' into H end.
Lemma zero_byte : is_byte 0. Proof. unfold is_byte; lia. Qed.
Ltac fin := destruct omit; cbn [emit fst]; rewrite ?app_nil_r; reflexivity.
Ltac pp := cbn [idx32]; rewrite p32 by (assumption || apply zero_byte); bits; cbn [app firstn]; unfold is_byte in *;
  repeat (apply (f_equal2 cons); [lia|]).
Lemma e32_emit bs col : Forall is_byte bs -> e32_0 t mc omit bs col = fst (emit t mc col (idx32 omit bs)).
Proof.
  revert col. induction bs as [|a|a b|a b c|a b c d|a b c d e r IH] using list5_ind; intros col H.
  - reflexivity.
  - cbn [e32_0 e32_1]. emits. inv H.
    transitivity (fst (emit t mc col ([Z.shiftr a 3] ++ [Z.shiftl (Z.land a 7) 2] ++ if omit then [] else [32; 32; 32; 32; 32; 32]))).
    { rewrite !emit_app. fin. }
    do 2 f_equal. pp. reflexivity.
  - cbn [e32_0 e32_1 e32_2]. emits. inv H.
    transitivity (fst (emit t mc col ([Z.shiftr a 3] ++ [Z.shiftl (Z.land a 7) 2 + Z.shiftr b 6; Z.land (Z.shiftr b 1) 31] ++ [Z.shiftl (Z.land b 1) 4] ++ if omit then [] else [32; 32; 32; 32]))).
    { rewrite !emit_app. fin. }
    do 2 f_equal. pp. reflexivity.
  - cbn [e32_0 e32_1 e32_2 e32_3]. emits. inv H.
    transitivity (fst (emit t mc col ([Z.shiftr a 3] ++ [Z.shiftl (Z.land a 7) 2 + Z.shiftr b 6; Z.land (Z.shiftr b 1) 31] ++ [Z.shiftl (Z.land b 1) 4 + Z.shiftr c 4] ++ [Z.shiftl (Z.land c 15) 1] ++ if omit then [] else [32; 32; 32]))).
    { rewrite !emit_app. fin. }
    do 2 f_equal. pp. reflexivity.
  - cbn [e32_0 e32_1 e32_2 e32_3 e32_4]. emits. inv H.
    transitivity (fst (emit t mc col ([Z.shiftr a 3] ++ [Z.shiftl (Z.land a 7) 2 + Z.shiftr b 6; Z.land (Z.shiftr b 1) 31] ++ [Z.shiftl (Z.land b 1) 4 + Z.shiftr c 4] ++ [Z.shiftl (Z.land c 15) 1 + Z.shiftr d 7; Z.land (Z.shiftr d 2) 31] ++ [Z.shiftl (Z.land d 3) 3] ++ if omit then [] else [32]))).
    { rewrite !emit_app. fin. }
    do 2 f_equal. pp. reflexivity.
  - cbn [e32_0 e32_1 e32_2 e32_3 e32_4]. emits. inv H. rewrite IH by assumption.
    transitivity (fst (emit t mc col ([Z.shiftr a 3] ++ [Z.shiftl (Z.land a 7) 2 + Z.shiftr b 6; Z.land (Z.shiftr b 1) 31] ++ [Z.shiftl (Z.land b 1) 4 + Z.shiftr c 4] ++ [Z.shiftl (Z.land c 15) 1 + Z.shiftr d 7; Z.land (Z.shiftr d 2) 31] ++ [Z.shiftl (Z.land d 3) 3 + Z.shiftr e 5; Z.land e 31] ++ idx32 omit r))).
    { rewrite !emit_app. fin. }
    do 2 f_equal. pp. reflexivity.
Qed.
Lemma map_digit32 alpha l : (forall v, 0 <= v < 32 -> tget t v = digit alpha v) -> (forall v, In v l -> 0 <= v < 32) -> map (tget t) l = map (digit alpha) l.
Proof. intros H. induction l; intros Hl; cbn [map]; [reflexivity|]. rewrite H, IHl by (intros; apply Hl; cbn; auto). reflexivity. Qed.
Lemma idx32_rfc alpha bs : (forall v, 0 <= v < 32 -> tget t v = digit alpha v) -> tget t 32 = pad ->
  map (tget t) (idx32 omit bs) = rfc32 alpha (negb omit) bs.
Proof.
  intros H Hp. induction bs as [|a|a b|a b c|a b c d|a b c d e r IH] using list5_ind; cbn [idx32 rfc32]; rewrite ?map_app.
  - reflexivity.
  - rewrite (map_digit32 alpha); auto. 2: { intros v Hv. eapply in_to_base; [|eapply in_firstn, Hv]. lia. }
    f_equal. destruct omit; cbn [map negb repeat]; now rewrite ?Hp.
  - rewrite (map_digit32 alpha); auto. 2: { intros v Hv. eapply in_to_base; [|eapply in_firstn, Hv]. lia. }
    f_equal. destruct omit; cbn [map negb repeat]; now rewrite ?Hp.
  - rewrite (map_digit32 alpha); auto. 2: { intros v Hv. eapply in_to_base; [|eapply in_firstn, Hv]. lia. }
    f_equal. destruct omit; cbn [map negb repeat]; now rewrite ?Hp.
  - rewrite (map_digit32 alpha); auto. 2: { intros v Hv. eapply in_to_base; [|eapply in_firstn, Hv]. lia. }
    f_equal. destruct omit; cbn [map negb repeat]; now rewrite ?Hp.
  - rewrite (map_digit32 alpha); auto. 2: { intros v Hv. eapply in_to_base; [|exact Hv]. lia. }
    now rewrite IH.
Qed.
End Enc32.

(* ---------- base32 decoder ---------- *)
Lemma q32 a b c d e f g h : 0 <= a < 32 -> 0 <= b < 32 -> 0 <= c < 32 -> 0 <= d < 32 -> 0 <= e < 32 -> 0 <= f < 32 -> 0 <= g < 32 -> 0 <= h < 32 ->
  to_base 256 5 (from_base 32 [a; b; c; d; e; f; g; h]) =
  [a * 8 + b / 4; b mod 4 * 64 + c * 2 + d / 16; d mod 16 * 16 + e / 2; e mod 2 * 128 + f * 4 + g / 8; g mod 8 * 32 + h].
Proof. intros. basen. repeat (apply (f_equal2 cons); [lia|]). reflexivity. Qed.
Section Dec32.
Context (t : list (option Z)) (strict : bool) (ws : Z -> bool).
Let val := lookup t.
Context (Hval : forall c v, val c = Some v -> 0 <= v < 32).
Notation outcome := (outcome strict).
Notation wrong := (wrong t ws).
Notation vb := (vb t).
Notation rng x := (0 <= x < 32).
Lemma vb_range32 s v : In v (vb s) -> rng v.
Proof. unfold Base64Proofs.vb, values. fold val. rewrite in_flat_map. intros (c & _ & H). destruct (val c) eqn:E; [|easy]. destruct H as [<-|[]]. eauto. Qed.
(** noise with 7 digits pending *)
Fixpoint stuck (n : nat) (s : list Z) : bool :=
  match s with
  | [] => false
  | c :: r => if c =? 61 then false else
    match val c with
    | Some _ => stuck (if (S n =? 8)%nat then 0%nat else S n) r
    | None => (n =? 7)%nat || stuck n r
    end
  end.
Lemma step32 c r :
  (d32_0 t strict ws  (c :: r) = if c =? 61 then Ok [] else match val c with Some v => d32_1 t strict ws v r | None => if bad strict ws c then Err else d32_0 t strict ws  r end) /\
  (forall p, d32_1 t strict ws p (c :: r) = if c =? 61 then Ok [] else match val c with Some v => emit_byte (Z.shiftl p 3 + Z.shiftr v 2) (d32_2 t strict ws (Z.land v 3) r) | None => if bad strict ws c then Err else d32_1 t strict ws p r end) /\
  (forall p, d32_2 t strict ws p (c :: r) = if c =? 61 then Ok [] else match val c with Some v => d32_3 t strict ws p v r | None => if bad strict ws c then Err else d32_2 t strict ws p r end) /\
  (forall p q, d32_3 t strict ws p q (c :: r) = if c =? 61 then Ok [] else match val c with Some v => emit_byte (Z.shiftl p 6 + Z.shiftl q 1 + Z.shiftr v 4) (d32_4 t strict ws (Z.land v 15) r) | None => if bad strict ws c then Err else d32_3 t strict ws p q r end) /\
  (forall p, d32_4 t strict ws p (c :: r) = if c =? 61 then Ok [] else match val c with Some v => emit_byte (Z.shiftl p 4 + Z.shiftr v 1) (d32_5 t strict ws (Z.land v 1) r) | None => if bad strict ws c then Err else d32_4 t strict ws p r end) /\
  (forall p, d32_5 t strict ws p (c :: r) = if c =? 61 then Ok [] else match val c with Some v => d32_6 t strict ws p v r | None => if bad strict ws c then Err else d32_5 t strict ws p r end) /\
  (forall p q, d32_6 t strict ws p q (c :: r) = if c =? 61 then Ok [] else match val c with Some v => emit_byte (Z.shiftl p 7 + Z.shiftl q 2 + Z.shiftr v 3) (d32_7 t strict ws (Z.land v 7) r) | None => if bad strict ws c then Err else d32_6 t strict ws p q r end) /\
  (forall p, d32_7 t strict ws p (c :: r) = if c =? 61 then Ok [] else match val c with Some v => emit_byte (Z.shiftl p 5 + v) (d32_0 t strict ws r) | None => if bad strict ws c then Err else UB end).
Proof. repeat split; reflexivity. Qed.
Lemma b32_1 c0 c1 l : rng c0 -> rng c1 -> (forall v, In v l -> rng v) ->
  bytes32 (c0 :: c1 :: l) = (c0 * 8 + c1 / 4) :: skipn 1 (bytes32 (c0 :: c1 :: l)).
Proof.
  intros Hc0 Hc1 H. destruct l as [|x0 [|x1 [|x2 [|x3 [|x4 [|x5 r]]]]]]; cbn [bytes32]; rewrite q32; try reflexivity; try assumption; try lia; apply H; cbn [In]; auto 10.
Qed.
Lemma b32_3 c0 c1 c2 c3 l : rng c0 -> rng c1 -> rng c2 -> rng c3 -> (forall v, In v l -> rng v) ->
  skipn 1 (bytes32 (c0 :: c1 :: c2 :: c3 :: l)) = (c1 mod 4 * 64 + c2 * 2 + c3 / 16) :: skipn 2 (bytes32 (c0 :: c1 :: c2 :: c3 :: l)).
Proof.
  intros Hc0 Hc1 Hc2 Hc3 H. destruct l as [|x0 [|x1 [|x2 [|x3 r]]]]; cbn [bytes32]; rewrite q32; try reflexivity; try assumption; try lia; apply H; cbn [In]; auto 10.
Qed.
Lemma b32_4 c0 c1 c2 c3 c4 l : rng c0 -> rng c1 -> rng c2 -> rng c3 -> rng c4 -> (forall v, In v l -> rng v) ->
  skipn 2 (bytes32 (c0 :: c1 :: c2 :: c3 :: c4 :: l)) = (c3 mod 16 * 16 + c4 / 2) :: skipn 3 (bytes32 (c0 :: c1 :: c2 :: c3 :: c4 :: l)).
Proof.
  intros Hc0 Hc1 Hc2 Hc3 Hc4 H. destruct l as [|x0 [|x1 [|x2 r]]]; cbn [bytes32]; rewrite q32; try reflexivity; try assumption; try lia; apply H; cbn [In]; auto 10.
Qed.
Lemma b32_6 c0 c1 c2 c3 c4 c5 c6 l : rng c0 -> rng c1 -> rng c2 -> rng c3 -> rng c4 -> rng c5 -> rng c6 -> (forall v, In v l -> rng v) ->
  skipn 3 (bytes32 (c0 :: c1 :: c2 :: c3 :: c4 :: c5 :: c6 :: l)) = (c4 mod 2 * 128 + c5 * 4 + c6 / 8) :: skipn 4 (bytes32 (c0 :: c1 :: c2 :: c3 :: c4 :: c5 :: c6 :: l)).
Proof.
  intros Hc0 Hc1 Hc2 Hc3 Hc4 Hc5 Hc6 H. destruct l as [|x0 r]; cbn [bytes32]; rewrite q32; try reflexivity; try assumption; try lia; apply H; cbn [In]; auto 10.
Qed.
Lemma b32_7 c0 c1 c2 c3 c4 c5 c6 c7 l : rng c0 -> rng c1 -> rng c2 -> rng c3 -> rng c4 -> rng c5 -> rng c6 -> rng c7 ->
  skipn 4 (bytes32 (c0 :: c1 :: c2 :: c3 :: c4 :: c5 :: c6 :: c7 :: l)) = (c6 mod 8 * 32 + c7) :: bytes32 l.
Proof. intros. cbn [bytes32]. rewrite q32 by assumption. reflexivity. Qed.
Lemma d32_spec s :
  (stuck 0 s = false -> d32_0 t strict ws  s = outcome (wrong 8 0 s) (bytes32 (vb s))) /\
  (forall c0, rng c0 -> stuck 1 s = false -> d32_1 t strict ws c0 s = outcome (wrong 8 1 s) (bytes32 (c0 :: vb s))) /\
  (forall c0 c1, rng c0 -> rng c1 -> stuck 2 s = false -> d32_2 t strict ws (Z.land c1 3) s = outcome (wrong 8 2 s) (skipn 1 (bytes32 (c0 :: c1 :: vb s)))) /\
  (forall c0 c1 c2, rng c0 -> rng c1 -> rng c2 -> stuck 3 s = false -> d32_3 t strict ws (Z.land c1 3) c2 s = outcome (wrong 8 3 s) (skipn 1 (bytes32 (c0 :: c1 :: c2 :: vb s)))) /\
  (forall c0 c1 c2 c3, rng c0 -> rng c1 -> rng c2 -> rng c3 -> stuck 4 s = false -> d32_4 t strict ws (Z.land c3 15) s = outcome (wrong 8 4 s) (skipn 2 (bytes32 (c0 :: c1 :: c2 :: c3 :: vb s)))) /\
  (forall c0 c1 c2 c3 c4, rng c0 -> rng c1 -> rng c2 -> rng c3 -> rng c4 -> stuck 5 s = false -> d32_5 t strict ws (Z.land c4 1) s = outcome (wrong 8 5 s) (skipn 3 (bytes32 (c0 :: c1 :: c2 :: c3 :: c4 :: vb s)))) /\
  (forall c0 c1 c2 c3 c4 c5, rng c0 -> rng c1 -> rng c2 -> rng c3 -> rng c4 -> rng c5 -> stuck 6 s = false -> d32_6 t strict ws (Z.land c4 1) c5 s = outcome (wrong 8 6 s) (skipn 3 (bytes32 (c0 :: c1 :: c2 :: c3 :: c4 :: c5 :: vb s)))) /\
  (forall c0 c1 c2 c3 c4 c5 c6, rng c0 -> rng c1 -> rng c2 -> rng c3 -> rng c4 -> rng c5 -> rng c6 -> stuck 7 s = false -> d32_7 t strict ws (Z.land c6 7) s = outcome (wrong 8 7 s) (skipn 4 (bytes32 (c0 :: c1 :: c2 :: c3 :: c4 :: c5 :: c6 :: vb s)))).
Proof.
  assert (Hno : forall l, outcome false l = Ok l) by (intros; unfold Base64Proofs.outcome; now rewrite andb_false_r).
  induction s as [|c r (I0 & I1 & I2 & I3 & I4 & I5 & I6 & I7)].
  - unfold Base64Proofs.vb. cbn [d32_0 d32_1 d32_2 d32_3 d32_4 d32_5 d32_6 d32_7 before_pad values flat_map Base64Proofs.wrong Nat.eqb negb]. repeat split; intros.
    + now rewrite Hno.
    + cbn [bytes32]; rewrite ?q32 by (assumption || lia). apply premature_outcome with (n := 1%nat); lia.
    + cbn [bytes32]; rewrite ?q32 by (assumption || lia). apply premature_outcome with (n := 2%nat); lia.
    + cbn [bytes32]; rewrite ?q32 by (assumption || lia). apply premature_outcome with (n := 3%nat); lia.
    + cbn [bytes32]; rewrite ?q32 by (assumption || lia). apply premature_outcome with (n := 4%nat); lia.
    + cbn [bytes32]; rewrite ?q32 by (assumption || lia). apply premature_outcome with (n := 5%nat); lia.
    + cbn [bytes32]; rewrite ?q32 by (assumption || lia). apply premature_outcome with (n := 6%nat); lia.
    + cbn [bytes32]; rewrite ?q32 by (assumption || lia). apply premature_outcome with (n := 7%nat); lia.
  - rewrite vb_cons. cbn [Base64Proofs.wrong stuck Nat.eqb orb]. destruct (step32 c r) as (S0 & S1 & S2 & S3 & S4 & S5 & S6 & S7).
    setoid_rewrite S0. setoid_rewrite S1. setoid_rewrite S2. setoid_rewrite S3. setoid_rewrite S4. setoid_rewrite S5. setoid_rewrite S6. setoid_rewrite S7.
    clear S0 S1 S2 S3 S4 S5 S6 S7. fold val.
    destruct (c =? 61).
    { repeat split; intros; rewrite Hno; cbn [bytes32]; rewrite ?q32 by (assumption || lia); reflexivity. }
    destruct (val c) as [v|] eqn:E.
    + pose proof (Hval _ _ E) as Hv. pose proof (vb_range32 r) as Hr. repeat split.
      * intros G. apply I1; assumption.
      * intros c0 H0 G. rewrite (I2 c0 v) by assumption. rewrite emit_outcome. bits. now rewrite <- b32_1 by assumption.
      * intros c0 c1 H0 H1 G. rewrite (I3 c0 c1 v) by assumption. reflexivity.
      * intros c0 c1 c2 H0 H1 H2 G. rewrite (I4 c0 c1 c2 v) by assumption. rewrite emit_outcome. bits. now rewrite <- b32_3 by assumption.
      * intros c0 c1 c2 c3 H0 H1 H2 H3 G. rewrite (I5 c0 c1 c2 c3 v) by assumption. rewrite emit_outcome. bits. now rewrite <- b32_4 by assumption.
      * intros c0 c1 c2 c3 c4 H0 H1 H2 H3 H4 G. rewrite (I6 c0 c1 c2 c3 c4 v) by assumption. reflexivity.
      * intros c0 c1 c2 c3 c4 c5 H0 H1 H2 H3 H4 H5 G. rewrite (I7 c0 c1 c2 c3 c4 c5 v) by assumption. rewrite emit_outcome. bits. now rewrite <- b32_6 by assumption.
      * intros c0 c1 c2 c3 c4 c5 c6 H0 H1 H2 H3 H4 H5 H6 G. rewrite I0 by assumption. rewrite emit_outcome. bits. now rewrite <- (b32_7 c0 c1 c2 c3 c4 c5 c6 v) by assumption.
    + repeat split; intros.
      * rewrite (I0 ) by assumption. now apply (bad_outcome t).
      * rewrite (I1 c0) by assumption. now apply (bad_outcome t).
      * rewrite (I2 c0 c1) by assumption. now apply (bad_outcome t).
      * rewrite (I3 c0 c1 c2) by assumption. now apply (bad_outcome t).
      * rewrite (I4 c0 c1 c2 c3) by assumption. now apply (bad_outcome t).
      * rewrite (I5 c0 c1 c2 c3 c4) by assumption. now apply (bad_outcome t).
      * rewrite (I6 c0 c1 c2 c3 c4 c5) by assumption. now apply (bad_outcome t).
      * discriminate.
Qed.
Lemma stuck_spec s : forall n, (n < 8)%nat -> (forall a c b, s = a ++ c :: b -> ~ In pad (a ++ [c]) -> val c = None -> ((n + List.length (values val a)) mod 8 <> 7)%nat) -> stuck n s = false.
Proof.
  clear Hval. induction s as [|c r IH]; intros n Hn H; cbn [stuck]; [reflexivity|].
  destruct (Z.eqb_spec c 61) as [|N]; [reflexivity|].
  destruct (val c) as [v|] eqn:E.
  - set (n' := if (S n =? 8)%nat then 0%nat else S n).
    assert (Hn' : (n' < 8)%nat) by (unfold n'; destruct (Nat.eqb_spec (S n) 8); lia).
    apply IH; [assumption|]. intros a x b -> Hp Hx.
    specialize (H (c :: a) x b eq_refl).
    assert (HV : values val (c :: a) = v :: values val a) by (unfold values; cbn [flat_map]; now rewrite E).
    rewrite HV in H. cbn [List.length] in H.
    assert (((n' + List.length (values val a)) mod 8 = (n + S (List.length (values val a))) mod 8)%nat) as ->.
    { unfold n'. destruct (Nat.eqb_spec (S n) 8) as [e|e].
      - replace (n + S (List.length (values val a)))%nat with (List.length (values val a) + 1 * 8)%nat by lia. rewrite Nat.mod_add by lia. f_equal.
      - f_equal; lia. }
    apply H; [|assumption]. cbn [In app]. intros [Hc|Hc]; [unfold pad in Hc; congruence|auto].
  - rewrite orb_false_iff, Nat.eqb_neq. split.
    + specialize (H [] c r eq_refl). cbn [values flat_map List.length] in H. rewrite Nat.add_0_r, Nat.mod_small in H by lia.
      apply H; [|assumption]. cbn. unfold pad. intuition congruence.
    + apply IH; [assumption|]. intros a x b -> Hp Hx. specialize (H (c :: a) x b eq_refl).
      assert (HV : values val (c :: a) = values val a) by (unfold values; cbn [flat_map]; now rewrite E).
      rewrite HV in H. apply H; [|assumption]. cbn [In app]. intros [Hc|Hc]; [unfold pad in Hc; congruence|auto].
Qed.
End Dec32.
