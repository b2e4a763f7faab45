(** The reader ends on every text, and more fuel changes nothing *)
From Coq Require Import List Bool ZArith Lia String.
From Verif Require Import Outcome BignumModel IntModel IntTextModel RwModel RwSpec RwProofs RwProofs2 RwProofs3.
Import ListNotations.
Local Open Scope list_scope.
Local Open Scope Z_scope.
Ltac Zify.zify_post_hook ::= idtac.

(** a result is not out of fuel, and consumes at least [k] of [n] characters *)
Definition fine {A} (n : nat) (r : rr A) : Prop := r <> NoFuel /\ forall a rest, r = Got a rest -> (List.length rest < n)%nat.
Lemma fine_fail : forall A n, @fine A n Fail. Proof. split; [discriminate|discriminate]. Qed.
Lemma fine_eof : forall A n, @fine A n Eof. Proof. split; [discriminate|discriminate]. Qed.
Lemma fine_outside : forall A n, @fine A n Outside. Proof. split; [discriminate|discriminate]. Qed.
Lemma fine_got : forall A n (a : A) rest, (List.length rest < n)%nat -> fine n (Got a rest).
Proof. intros A n a rest L. split; [discriminate|]. intros a' r' E. injection E as <- <-. exact L. Qed.
Lemma fine_le : forall A n m (r : rr A), (n <= m)%nat -> fine n r -> fine m r.
Proof. intros A n m r L [H1 H2]. split; auto. intros a rest E. apply H2 in E. lia. Qed.
Lemma fine_map : forall A B (f : A -> B) n r, fine n r -> fine n (map_got f r).
Proof. intros A B f n [| | | |a rest] [H1 H2]; cbn [map_got]; auto using fine_fail, fine_eof, fine_outside; try congruence. apply fine_got. eauto. Qed.
Lemma fine_some : forall n r, fine n r -> fine n (some_datum r).
Proof. intros n [| | | |a rest] [H1 H2]; cbn [some_datum]; auto using fine_fail, fine_eof, fine_outside; try congruence. apply fine_got. eauto. Qed.
Lemma fine_quoted : forall n s r, fine n r -> fine n (finish_quoted s r).
Proof. intros n s [| | | |a rest] [H1 H2]; cbn [finish_quoted]; auto using fine_fail, fine_eof, fine_outside; try congruence. apply fine_got. eauto. Qed.


Lemma skipws_le : forall inp b, (List.length (skipws b inp) <= List.length inp)%nat.
Proof.
  induction inp as [|c t IH]; intros b; cbn [skipws]; [lia|]. pose proof (IH true) as I1. pose proof (IH false) as I2. pose proof (IH (negb (c =? 10))) as I3.
  destruct b; [cbn [List.length]; lia|]. destruct (c <=? 127); [destruct (isspace c); [|destruct (c =? 59)]|destruct (extra_ws false c)]; cbn [List.length]; lia.
Qed.
Lemma xd_span_le : forall inp a b, xd_span inp = (a, b) -> (List.length b <= List.length inp)%nat.
Proof.
  induction inp as [|c t IH]; intros a b H; cbn [xd_span] in H; [injection H as <- <-; cbn; lia|]. destruct (c =? 59); [injection H as <- <-; cbn; lia|]. destruct ((128 <=? c) || negb (isxdigit c)); [injection H as <- <-; cbn; lia|].
  destruct (xd_span t) as [a' b'] eqn:E. injection H as <- <-. specialize (IH _ _ eq_refl). cbn [List.length]. lia.
Qed.
Lemma xdigits_port_le : forall k inp cs r, read_xdigits_port k inp = Some (cs, r) -> (List.length r <= List.length inp)%nat.
Proof.
  intros k inp cs r H. unfold read_xdigits_port in H. destruct (xd_span inp) as [a b] eqn:E. destruct (read_xdigits k true a); [discriminate|]. injection H as <- <-. now apply xd_span_le in E.
Qed.
Lemma read_string_S : forall f st acc c t, read_string (S f) st acc (c :: t) =
      match st with
      | SNormal => if c =? 34 then Got acc t
                   else if c =? 92 then read_string f SBackslash acc t
                   else read_string f SNormal (acc ++ [c]) t
      | SBackslash =>
        if c =? 110 then read_string f SNormal (acc ++ [10]) t
        else if c =? 114 then read_string f SNormal (acc ++ [13]) t
        else if c =? 102 then read_string f SNormal (acc ++ [12]) t
        else if c =? 116 then read_string f SNormal (acc ++ [9]) t
        else if c =? 97 then read_string f SNormal (acc ++ [7]) t
        else if c =? 98 then read_string f SNormal (acc ++ [8]) t
        else if c =? 92 then read_string f SNormal (acc ++ [92]) t
        else if c =? 48 then read_string f SNormal (acc ++ [0]) t
        else if c =? 120 then
          match read_xdigits_port Kx t with None => Fail | Some (cs, r) => read_string f SNormal (acc ++ cs) r end
        else if c =? 117 then
          match read_xdigits_port Ku t with None => Fail | Some (cs, r) => read_string f SNormal (acc ++ cs) r end
        else if c =? 85 then
          match read_xdigits_port KU t with None => Fail | Some (cs, r) => read_string f SNormal (acc ++ cs) r end
        else if (c =? 32) || (c =? 9) then read_string f SLineWs acc t
        else if c =? 13 then read_string f SContCr acc t
        else if c =? 10 then read_string f SContLf acc t
        else if extra_ws true c then read_string f SLineWs acc t
        else read_string f SNormal (acc ++ [c]) t
      | SLineWs =>
        if c =? 13 then read_string f SContCr acc t
        else if c =? 10 then read_string f SContLf acc t
        else if negb (intraline_ws c) then Fail
        else read_string f SLineWs acc t
      | SContCr =>
        if c =? 34 then Got acc t
        else if c =? 92 then read_string f SBackslash acc t
        else if negb (c =? 10) && negb (intraline_ws c) then read_string f SNormal (acc ++ [c]) t
        else read_string f SContLf acc t
      | SContLf =>
        if c =? 34 then Got acc t
        else if c =? 92 then read_string f SBackslash acc t
        else if negb (intraline_ws c) then read_string f SNormal (acc ++ [c]) t
        else read_string f SContLf acc t
      end.
Proof. reflexivity. Qed.
Lemma read_string_fine : forall f st acc inp, (List.length inp < f)%nat -> fine (List.length inp) (read_string f st acc inp).
Proof.
  induction f as [|f IH]; intros st acc inp L; [lia|]. destruct inp as [|c t]; [apply fine_fail|]. rewrite read_string_S. cbn [List.length] in *.
  assert (G : forall st acc, fine (S (List.length t)) (read_string f st acc t)). { intros. eapply fine_le; [|apply IH; lia]. lia. }
  assert (X : forall k, fine (S (List.length t)) (match read_xdigits_port k t with None => Fail | Some (cs, r) => read_string f SNormal (acc ++ cs) r end)).
  { intros k. destruct (read_xdigits_port k t) as [[cs r]|] eqn:E; [|apply fine_fail]. apply xdigits_port_le in E. eapply fine_le; [|apply IH; lia]. lia. }
  destruct st; repeat match goal with |- fine _ (if ?b then _ else _) => destruct b end; auto using fine_fail; apply fine_got; lia.
Qed.
Lemma read_escaped_S : forall f acc c t, read_escaped (S f) acc (c :: t) =
      if c =? 124 then Got acc t
      else if c =? 92 then
        match t with
        | [] => Fail
        | e :: t' =>
          if e =? 120 then
            match read_xdigits_port Kx t' with None => Fail | Some (cs, r) => read_escaped f (acc ++ cs) r end
          else read_escaped f (acc ++ [if e =? 97 then 7 else if e =? 98 then 8 else if e =? 116 then 9
                                       else if e =? 110 then 10 else if e =? 114 then 13 else e]) t'
        end
      else read_escaped f (acc ++ [c]) t.
Proof. reflexivity. Qed.
Lemma read_escaped_fine : forall f acc inp, (List.length inp < f)%nat -> fine (List.length inp) (read_escaped f acc inp).
Proof.
  induction f as [|f IH]; intros acc inp L; [lia|]. destruct inp as [|c t]; [apply fine_fail|]. rewrite read_escaped_S. cbn [List.length] in *.
  destruct (c =? 124); [apply fine_got; lia|]. destruct (c =? 92); [|eapply fine_le; [|apply IH; lia]; lia]. destruct t as [|e t']; [apply fine_fail|]. cbn [List.length] in *. destruct (e =? 120); [|eapply fine_le; [|apply IH; lia]; lia].
  destruct (read_xdigits_port Kx t') as [[cs r]|] eqn:E; [|apply fine_fail]. apply xdigits_port_le in E. eapply fine_le; [|apply IH; lia]. lia.
Qed.
Lemma read_word_le : forall gc fold h inp w r, read_word gc fold h inp = (w, r) -> (List.length r <= List.length inp)%nat.
Proof.
  induction inp as [|c t IH]; intros w r H; cbn [read_word] in H; [injection H as <- <-; cbn; lia|]. destruct (constituent gc h c); [|injection H as <- <-; cbn; lia]. destruct (read_word gc fold h t) as [w' r'] eqn:E. injection H as <- <-. specialize (IH _ _ eq_refl). cbn [List.length]. lia.
Qed.
Lemma read_word_from_le : forall gc fold h i inp w r, read_word_from gc fold h i inp = (w, r) -> (List.length r <= List.length inp)%nat.
Proof. intros gc fold h i inp w r H. unfold read_word_from in H. destruct (read_word gc fold h inp) as [w' r'] eqn:E. injection H as <- <-. now apply read_word_le in E. Qed.
Lemma read_char_fine : forall gc inp, fine (List.length inp) (read_char gc inp).
Proof.
  intros gc [|c t]; [apply fine_fail|]. unfold read_char. destruct (existsb _ _); [apply fine_got; cbn; lia|]. destruct (read_word_from gc true false c t) as [name rest] eqn:E. apply read_word_from_le in E.
  assert (G : forall d : datum, fine (List.length (c :: t)) (Got d rest)) by (intros; apply fine_got; cbn [List.length]; lia).
  destruct name as [|n0 [|n1 n']]; auto using fine_fail. repeat match goal with |- fine _ (if ?b then _ else _) => destruct b end; auto using fine_fail.
  - destruct (read_xdigits Kx false (n1 :: n')) as [|code [|]]; auto using fine_fail.
  - destruct (read_xdigits Kx false (n1 :: n')) as [|code [|]]; auto using fine_fail.
  - destruct (find_name (n0 :: n1 :: n') char_names); auto using fine_fail.
Qed.
Lemma intern_fine : forall s rest n, (List.length rest < n)%nat -> fine n (intern_valid s rest).
Proof. intros. unfold intern_valid. destruct (existsb _ _); [apply fine_fail|now apply fine_got]. Qed.
Lemma read_symbol_fine : forall gc i inp, fine (S (List.length inp)) (read_symbol gc i inp).
Proof. intros. unfold read_symbol. destruct (read_word_from gc false true i inp) as [s r] eqn:E. apply read_word_from_le in E. apply intern_fine. lia. Qed.
Lemma read_symbol_or_number_fine : forall gc limit i inp, fine (S (List.length inp)) (read_symbol_or_number gc limit i inp).
Proof.
  intros. unfold read_symbol_or_number. destruct (read_word_from gc false true i inp) as [s r] eqn:E. apply read_word_from_le in E. destruct (string_to_number limit s) as [[n| |]| | |]; auto using fine_outside; [apply fine_got; lia|apply intern_fine; lia].
Qed.
Lemma read_keyword_fine : forall gc inp, fine (S (List.length inp)) (read_keyword gc (S (List.length inp)) inp).
Proof.
  intros gc inp. unfold read_keyword. destruct (match inp with c :: _ => c =? 124 | [] => false end).
  - assert (L : (List.length (tl inp) <= List.length inp)%nat) by (destruct inp; cbn [tl List.length]; lia). pose proof (read_escaped_fine (S (List.length inp)) [] (tl inp) ltac:(lia)) as [H1 H2].
    destruct (read_escaped (S (List.length inp)) [] (tl inp)); auto using fine_fail, fine_eof, fine_outside; try congruence. apply fine_got. specialize (H2 _ _ eq_refl). lia.
  - destruct (read_word gc false false inp) as [w r] eqn:E. apply read_word_le in E. apply fine_got. lia.
Qed.
Lemma read_sharp_word_fine : forall gc c inp, fine (S (List.length inp)) (read_sharp_word gc c inp).
Proof.
  intros. unfold read_sharp_word. destruct (read_word_from gc true false c inp) as [w r] eqn:E. apply read_word_from_le in E.
  assert (G : forall d : datum, fine (S (List.length inp)) (Got d r)) by (intros; apply fine_got; lia).
  repeat match goal with |- fine _ (if ?b then _ else _) => destruct b end; auto using fine_outside; destruct w as [|? [|]]; auto; repeat match goal with |- fine _ (if ?b then _ else _) => destruct b end; auto using fine_outside, fine_fail.
Qed.
Lemma nested_comment_lt : forall inp d p rest, nested_comment d p inp = Some rest -> (List.length rest < List.length inp)%nat.
Proof.
  induction inp as [|c t IH]; intros d p rest H; cbn [nested_comment] in H; [discriminate|]. cbn [List.length].
  destruct ((p =? 35) && (c =? 124)); [apply IH in H; lia|]. destruct ((p =? 124) && (c =? 35)); [|apply IH in H; lia]. destruct d; [injection H as <-; lia|apply IH in H; lia].
Qed.

(** ** more fuel changes nothing *)
Definition same {A} (a b : rr A) : Prop := a = NoFuel \/ b = a.
Lemma same_map : forall A B (f : A -> B) a b, same a b -> same (map_got f a) (map_got f b).
Proof. intros A B f a b [->| ->]; [now left|now right]. Qed.
Lemma same_quoted : forall s a b, same a b -> same (finish_quoted s a) (finish_quoted s b).
Proof. intros s a b [->| ->]; [now left|now right]. Qed.
Lemma more_fuel : forall gc limit f,
  (forall inp, same (read_internal gc limit f inp) (read_internal gc limit (S f) inp)) /\
  (forall inp, same (read_item gc limit f inp) (read_item gc limit (S f) inp)) /\
  (forall closer acc tail inp, same (read_list_int gc limit f closer acc tail inp) (read_list_int gc limit (S f) closer acc tail inp)).
Proof.
  intros gc limit. induction f as [|f (I1 & I2 & I3)]. { repeat split; intros; left; reflexivity. }
  split; [|split].
  - intros inp. rewrite (read_internal_S gc limit f), (read_internal_S gc limit (S f)). destruct (skipws false inp) as [|c t]; [now right|].
    repeat match goal with |- same (if ?b then _ else _) _ => destruct b end; try (now right); try (apply same_map; auto; fail); try (apply same_quoted; auto; fail).
    + destruct t as [|c1 t1]; [now right|]. repeat match goal with |- same (if ?b then _ else _) _ => destruct b end; try (now right).
      * destruct (I3 41 [] None t1) as [->|E]; [now left|]. rewrite E. now right.
      * destruct (I2 t1) as [->|E]; [now left|]. rewrite E. now right.
    + destruct t as [|c1 t1]; [now right|]. destruct (c1 =? 64); apply same_quoted; auto.
  - intros inp. rewrite (read_item_S gc limit f), (read_item_S gc limit (S f)). destruct (I1 inp) as [->|E]; [now left|]. rewrite E. destruct (read_internal gc limit f inp) as [| | | |[d|] rest]; try (now right). apply I2.
  - intros closer acc tail inp. rewrite (read_list_int_S gc limit f), (read_list_int_S gc limit (S f)). destruct (skipws false inp) as [|c t]; [now right|]. destruct (c =? closer); [now right|]. destruct (c =? 46).
    + destruct tail; [now right|]. destruct t as [|c2 t2]; [now right|]. destruct (c2 =? closer); [now right|]. destruct (negb (constituent gc false c2)).
      * destruct acc; [now right|]. destruct (I2 (c2 :: t2)) as [->|E]; [now left|]. rewrite E. destruct (read_item gc limit f (c2 :: t2)); try (now right). apply I3.
      * destruct (read_symbol_or_number gc limit c (c2 :: t2)); try (now right). apply I3.
    + destruct (I1 (c :: t)) as [->|E]; [now left|]. rewrite E. destruct (read_internal gc limit f (c :: t)) as [| | | |[d|] rest]; try (now right); [destruct tail; [now right|]|]; apply I3.
Qed.
Lemma more_fuel_item : forall gc limit f g inp, (f <= g)%nat -> read_item gc limit f inp <> NoFuel -> read_item gc limit g inp = read_item gc limit f inp.
Proof.
  intros gc limit f g inp L. induction L as [|g L IH]; intros N; [reflexivity|]. specialize (IH N). destruct (more_fuel gc limit g) as (_ & H & _). destruct (H inp) as [E|E]; congruence.
Qed.

(** ** the reader ends *)
Lemma reader_fine : forall gc limit f,
  (forall inp, (3 * List.length inp + 1 <= f)%nat -> fine (List.length inp) (read_internal gc limit f inp)) /\
  (forall inp, (3 * List.length inp + 2 <= f)%nat -> fine (List.length inp) (read_item gc limit f inp)) /\
  (forall closer acc tail inp, (3 * List.length inp + 2 <= f)%nat -> fine (List.length inp) (read_list_int gc limit f closer acc tail inp)).
Proof.
  intros gc limit. induction f as [|f (I1 & I2 & I3)]. { repeat split; intros; lia. }
  assert (Q : forall inp c t, skipws false inp = c :: t -> (S (List.length t) <= List.length inp)%nat). { intros inp c t E. pose proof (skipws_le inp false) as L. rewrite E in L. exact L. }
  split; [|split].
  - intros inp L. rewrite read_internal_S. destruct (skipws false inp) as [|c t] eqn:E; [apply fine_eof|]. apply Q in E. 
    assert (LI : forall c, fine (List.length inp) (read_list_int gc limit f c [] None t)) by (intros; eapply fine_le; [|apply I3; lia]; lia).
    assert (IT : fine (List.length inp) (read_item gc limit f t)) by (eapply fine_le; [|apply I2; lia]; lia).
    assert (LE : forall A (r : rr A), fine (S (List.length t)) r -> fine (List.length inp) r) by (intros; eapply fine_le; [|eassumption]; lia).
    assert (ST : forall t', (List.length t' <= List.length t)%nat -> fine (List.length inp) (read_string (S (List.length t')) SNormal [] t')) by (intros; eapply fine_le; [|apply read_string_fine; lia]; lia).
    repeat match goal with |- fine _ (if ?b then _ else _) => destruct b end; try (apply fine_map; auto; fail); try (apply fine_quoted; auto; fail); try apply fine_fail; try (apply fine_some; apply LE; first [apply read_keyword_fine|apply read_symbol_or_number_fine|apply read_symbol_fine]).
    + destruct t as [|c1 t1]; [apply fine_fail|]. cbn [List.length] in *.
      repeat match goal with |- fine _ (if ?b then _ else _) => destruct b end; try apply fine_fail; try apply fine_outside; try (apply fine_some; eapply fine_le; [|apply read_sharp_word_fine]; lia).
      * pose proof (I3 41 [] None t1 ltac:(lia)) as [H1 H2]. destruct (read_list_int gc limit f 41 [] None t1) as [| | | |p rest]; try congruence; auto using fine_fail, fine_eof, fine_outside. destruct (list_elements _); [|apply fine_fail]. apply fine_got. specialize (H2 _ _ eq_refl). lia.
      * apply fine_some. eapply fine_le; [|apply read_char_fine]. lia.
      * destruct (nested_comment 0 0 t1) as [rest|] eqn:N; [|apply fine_fail]. apply nested_comment_lt in N. apply fine_got. lia.
      * destruct t1 as [|c2 t2]; [apply fine_outside|]. cbn [List.length] in *. repeat match goal with |- fine _ (if ?b then _ else _) => destruct b end; try apply fine_outside.
        { destruct t2 as [|c3 t3]; [apply fine_fail|]. cbn [List.length] in *. destruct (c3 =? 34); [|apply fine_fail]. apply fine_map, ST. lia. }
        { apply fine_map, ST. lia. }
      * pose proof (I2 t1 ltac:(lia)) as [H1 H2]. destruct (read_item gc limit f t1) as [| | | |p rest]; try congruence; auto using fine_fail, fine_eof, fine_outside; apply fine_got; [cbn [List.length]; lia|]. specialize (H2 _ _ eq_refl). lia.
    + destruct t as [|c1 t1]; [apply fine_fail|]. cbn [List.length] in *. destruct (c1 =? 64); apply fine_quoted; auto. eapply fine_le; [|apply I2; lia]. lia.
    + apply fine_map. eapply fine_le; [|apply read_escaped_fine; lia]. lia.
    + destruct t as [|c1 t1]; [apply fine_fail|]. destruct (constituent gc false c1); [|apply fine_fail]. apply fine_some, LE, read_symbol_or_number_fine.
  - intros inp L. rewrite read_item_S. pose proof (I1 inp ltac:(lia)) as [H1 H2]. destruct (read_internal gc limit f inp) as [| | | |[d|] rest]; try congruence; auto using fine_fail, fine_eof, fine_outside; specialize (H2 _ _ eq_refl); [apply fine_got; auto|]. eapply fine_le; [|apply I2; lia]. lia.
  - intros closer acc tail inp L. rewrite read_list_int_S. destruct (skipws false inp) as [|c t] eqn:E; [apply fine_fail|]. apply Q in E. destruct (c =? closer); [apply fine_got; lia|]. destruct (c =? 46).
    + destruct tail; [apply fine_fail|]. destruct t as [|c2 t2]; [apply fine_fail|]. destruct (c2 =? closer); [apply fine_fail|]. destruct (negb (constituent gc false c2)).
      * destruct acc; [apply fine_fail|]. pose proof (I2 (c2 :: t2) ltac:(lia)) as [H1 H2]. destruct (read_item gc limit f (c2 :: t2)) as [| | | |d' rest]; try congruence; auto using fine_fail, fine_eof, fine_outside. specialize (H2 _ _ eq_refl). eapply fine_le; [|apply I3; lia]. lia.
      * pose proof (read_symbol_or_number_fine gc limit c (c2 :: t2)) as [H1 H2]. destruct (read_symbol_or_number gc limit c (c2 :: t2)) as [| | | |d' rest]; try congruence; auto using fine_fail, fine_eof, fine_outside. specialize (H2 _ _ eq_refl). eapply fine_le; [|apply I3; lia]. lia.
    + pose proof (I1 (c :: t)) as H. cbn [List.length] in H. destruct (H ltac:(lia)) as [H1 H2]. destruct (read_internal gc limit f (c :: t)) as [| | | |[d|] rest]; try congruence; auto using fine_fail, fine_eof, fine_outside; specialize (H2 _ _ eq_refl); [destruct tail; [apply fine_fail|]|]; (eapply fine_le; [|apply I3; lia]; lia).
Qed.
Lemma read_fine : forall gc limit inp, fine (List.length inp) (read gc limit inp).
Proof. intros. unfold read. destruct (reader_fine gc limit (4 * List.length inp + 4)) as (_ & H & _). apply H. lia. Qed.
Lemma read_any_fuel : forall gc limit inp f, (4 * List.length inp + 4 <= f)%nat -> read_item gc limit f inp = read gc limit inp.
Proof. intros. unfold read. apply more_fuel_item; [lia|]. apply read_fine. Qed.
