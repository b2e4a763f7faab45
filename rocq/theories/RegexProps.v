(** C20: a search with a compiled regular expression finds the leftmost match. *)
From Coq Require Import List ZArith Bool Lia.
From Verif Require Import Utf8Model Utf8Spec Utf8Proofs StringSpec StringProofs RegexModel RegexSpec RegexScope RegexVm RegexDec RegexAtom RegexComp RegexMain RegexExec RegexOpt.
Import ListNotations.
Local Open Scope nat_scope.
Ltac Zify.zify_post_hook ::= idtac.

(** The expressions covered (RegexScope): no case folding, once, backreference; $ only where it is an assertion; loops
    consume; reluctant loops and bare alternatives have a simple body; no ambiguous unbounded loop at the end of a loop body; a
    negated and a plain class of the same expression are disjoint or complementary enough for is_distinct. *)
Definition in_scope (sets : list cset) (mu : bool) (l : list re) : Prop :=
  forallb (src sets false) l = true /\ classes_ok sets l /\ wf sets mu true (Grp 0 l) = true /\ nest [] (Grp 0 l) = true.

(** The matcher always finishes, and answers the leftmost match or none. *)
Theorem regexp_search_partial sets mu l rx down w bs extra :
  in_scope sets mu l -> regcomp sets mu false l = Some rx -> encodes_all w bs -> char_get extra <> Oob ->
  exists N, forall fuel, N <= fuel -> exists res, regexec rx down (bs ++ extra) (length bs) fuel = Some res /\
    search_result w sets mu l (flat_map groups l) res.
Proof.
  intros (Hs & Hc & Hw & Hn) Hrx He Hex. apply encodes_all_enc in He as (wv & ->).
  assert (Eo : optimize sets (wrap false l) = Grp 0 (opt_seq sets l [])) by reflexivity.
  unfold regcomp in Hrx. rewrite Eo in Hrx.
  assert (Es : rx_sets rx = sets /\ rx_multi rx = mu).
  { unfold rc3 in Hrx. destruct (assemble _); [|discriminate]. injection Hrx as <-. auto. }
  destruct Es as (Es & Em). rewrite <- Es, <- Em in Hrx.
  pose proof (opt_seq_rel w sets mu l [] Hs) as R.
  set (L := opt_seq sets l []) in *.
  assert (Sf : safes (mkctx rx down (enc w ++ extra) (length (enc w))) w L (fun _ => True)).
  { unfold L. replace sets with (RegexModel.sets (mkctx rx down (enc w ++ extra) (length (enc w)))) by exact Es. apply (opt_seq_safe _ _ (flat_map atoms l)); auto.
    - cbn [RegexModel.sets mkctx]. rewrite Es. exact Hc.
    - cbn [RegexModel.sets mkctx]. rewrite Es. exact Hs.
    - apply incl_refl. }
  assert (Wf : wf (rx_sets rx) (rx_multi rx) true (Grp 0 L) = true).
  { rewrite Es, Em. cbn [wf] in *. apply (s_wf _ _ _ _ _ R). exact Hw. }
  assert (Ne : nest [] (Grp 0 L) = true).
  { cbn [nest existsb negb andb] in *. apply (s_nest _ _ _ _ _ R). exact Hn. }
  destruct (regexec_spec rx down w extra L ltac:(rewrite Es, Em in *; exact Hrx) wv Hex Wf Sf
    (fun g i j => exists b, In (g, b) (flat_map groups l) /\ mts w sets mu b i j) Ne) as (N & HN).
  { intros g b I i j A. apply (s_grp _ _ _ _ _ R) in I as (b' & I & E). exists b'. split; auto. apply E. rewrite Es, Em in A. exact A. }
  exists N. intros fuel Hf. destruct (HN fuel Hf) as (res & Er & Ha). exists res. split; [exact Er|]. unfold answer, found, capok in Ha. rewrite Es, Em in Ha.
  destruct Ha as [(m & i & -> & Hi & (j & A & E0 & Hj & Eg) & Hl)|(-> & H)].
  - left. exists m, i, j. split; auto. pose proof (mts_range w sets mu L i j ltac:(lia) A). split; [lia|]. split; [apply R; exact A|]. split; [exact E0|]. split.
    + intros i' j' L1 B. eapply Hl; [|exact L1|apply R; exact B]. lia.
    + intros g Ng. destruct (Eg g Ng) as [E|(i' & j' & L1 & L2 & L3 & (b & I & B) & E)]; [left; exact E|]. right. exists b, i', j'. auto 10.
  - right. split; auto. intros i j L1 B. eapply H; [|exact L1|apply R; exact B]. lia.
Qed.

(** The hypotheses are met: an expression with an alternative, a group, nested loops and both kinds of classes. *)
Definition ex_sets : list cset := [{| ranges := [(120, 120)%Z]; large := false |}; {| ranges := [(97, 99)%Z]; large := false |}].
Definition ex_re : list re :=
  [Alt [Seq [Rep Greedy 0 None [Grp 1 [Chr 97; Rep Greedy 0 None [Chr 98]]]; Chr 99]; Seq [Rep Greedy 1 None [Comp 0]; Chr 120; Look true [CSet 1]]]].
Example ex_in_scope : in_scope ex_sets false ex_re.
Proof.
  split; [reflexivity|]. split; [|split; reflexivity]. intros k k' I J. left.
  cbn in I, J. repeat (destruct I as [I|I]; try discriminate); [|contradiction]. repeat (destruct J as [J|J]; try discriminate); [|contradiction]. injection I as <-. injection J as <-.
  intros ch (lo & hi & [E|[]] & B) (lo' & hi' & [E'|[]] & B'). injection E as <- <-. injection E' as <- <-. lia.
Qed.
Definition text (l : list Z) : list Z := l.
Definition sub (r : option result) (g : nat) : option (option nat * option nat) := match r with Some (RMatch m) => Some (m g) | _ => None end.
Definition search (sets : list cset) (mu cf : bool) (l : list re) (w : list Z) : option result :=
  match regcomp sets mu cf l with Some rx => regexec rx (fun c => if (65 <=? c)%Z && (c <=? 90)%Z then (c + 32)%Z else c) (w ++ [0%Z]) (length w) 1000 | None => None end.
(** "zabbac": the first alternative matches at 1, the group ends as the last "a" *)
Example ex_compiles : exists rx, regcomp ex_sets false false ex_re = Some rx. Proof. eexists. reflexivity. Qed.
Example ex_search : sub (search ex_sets false false ex_re [120; 97; 98; 98; 97; 99]%Z) 0 = Some (Some 1, Some 6) /\ sub (search ex_sets false false ex_re [120; 97; 98; 98; 97; 99]%Z) 1 = Some (Some 4, Some 5).
Proof. split; reflexivity. Qed.

(** Outside the scope the claim fails.  The text has a match, the search says there is none (or finds a later one). *)
(** #/(?:a+){2}/ does not match "aa": the inner a+ is made a loop without backtracking because nothing follows it *)
Theorem regexp_nested_loop_refuted : exists l w, search [] false false l w = Some RNone /\ mts w [] false l 0 2.
Proof.
  exists [Rep Greedy 2 (Some 2) [Seq [Rep Greedy 1 None [Chr 97]]]], [97; 97]%Z. split; [reflexivity|].
  assert (one : forall i, i < 2 -> mts [97; 97]%Z [] false [Seq [Rep Greedy 1 None [Chr 97]]] i (S i)).
  { intros i Hi. apply mts_one. rewrite mt_seq. apply mts_one. rewrite mt_rep. exists 1. split; [lia|]. split; [exact Logic.I|]. exists (S i). split; [|reflexivity]. apply mts_one. cbn. split; [|reflexivity]. destruct i as [|[|i]]; [reflexivity|reflexivity|lia]. }
  apply mts_one. rewrite mt_rep. exists 2. split; [lia|]. split; [lia|]. exists 1. split; [apply one; lia|]. exists 2. split; [apply one; lia|reflexivity].
Qed.
(** #/[^a]*[ab]/ does not match "b": is_distinct says that [^a] and [ab] have no character in common *)
Theorem regexp_distinct_refuted : exists sets l w, search sets false false l w = Some RNone /\ mts w sets false l 0 1.
Proof.
  exists [{| ranges := [(97, 97)%Z]; large := false |}; {| ranges := [(97, 98)%Z]; large := false |}], [Rep Greedy 0 None [Comp 0]; CSet 1], [98%Z]. split; [reflexivity|].
  exists 0. split; [rewrite mt_rep; exists 0; repeat split; lia|]. apply mts_one. exists 98%Z. split; [reflexivity|]. split; [|reflexivity]. exists 97%Z, 98%Z. split; [left; reflexivity|lia].
Qed.
(** the same expression with a capital and case folding: #/a*b/i finds "B" in "AAB", not "AAB", as the loop without
    backtracking ignores the folding *)
Example regexp_fold_loop_wrong : sub (search [] false true [Rep Greedy 0 None [Chr 97]; Chr 98] [65; 65; 66]%Z) 0 = Some (Some 2, Some 3).
Proof. reflexivity. Qed.
(** #/(a+)b\1/ does not match "aaba", though "aba" from 1 on is a match: after the failure at 0 the search skips all the
    characters the loop a+ could start with *)
Example regexp_backref_example : sub (search [] false false [Grp 1 [Rep Greedy 1 None [Chr 97]]; Chr 98; Backref 1] [97; 97; 98; 97]%Z) 0 = None.
Proof. reflexivity. Qed.
(** In the SRE with a reluctant loop over (or "ab" "c"): the alternatives of the body of a reluctant loop are merged into single characters, and
    "ab" is no longer matched as a unit: followed by "d" the loop matches "bd" as a whole *)
Theorem regexp_lazy_alt_refuted : exists l w, sub (search [] false false l w) 0 = Some (Some 0, Some 2) /\ forall i, ~ mts w [] false l 0 i.
Proof.
  exists [Rep Lazy 0 None [Alt [Seq [Chr 97; Chr 98]; Chr 99]]; Chr 100], [98; 100]%Z. split; [reflexivity|].
  intros i (h & A & B). apply mts_one in B. rewrite mt_rep in A. destruct A as (q & _ & _ & A). destruct q as [|q]; cbn [iter] in A.
  - subst h. destruct B as (B & _). discriminate.
  - destruct A as (h2 & A & _). apply mts_one in A. rewrite mt_alt in A. destruct A as (x & [<-|[<-|[]]] & A).
    + rewrite mt_seq in A. destruct A as (h3 & (A & _) & _). discriminate.
    + destruct A as (A & _). discriminate.
Qed.

Print Assumptions regexp_search_partial.
Print Assumptions regexp_nested_loop_refuted.
Print Assumptions regexp_distinct_refuted.
Print Assumptions regexp_lazy_alt_refuted.
