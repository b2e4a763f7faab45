From Coq Require Import List Bool ZArith Lia Sorting.Sorted Permutation.
From Verif Require Import Outcome TreeModel TreeSpec.
Import ListNotations.

Section P.
Context {K V : Type}.
Implicit Types (t l r : tree K V) (p : path K V) (e : entry K V).

Fixpoint elements t : list (entry K V) :=
  match t with E => [] | T _ l i k v r => elements l ++ (i, k, v) :: elements r end.
Fixpoint pl p : list (entry K V) :=
  match p with
  | Top => []
  | PL _ _ _ _ _ up => pl up
  | PR _ l i k v up => pl up ++ elements l ++ [(i, k, v)]
  end.
Fixpoint pr p : list (entry K V) :=
  match p with
  | Top => []
  | PL _ i k v r up => (i, k, v) :: elements r ++ pr up
  | PR _ _ _ _ _ up => pr up
  end.

Lemma elements_zip : forall p t, elements (zip t p) = pl p ++ elements t ++ pr p.
Proof.
  induction p; intro t; cbn [zip pl pr]; [now rewrite app_nil_r| |];
    rewrite IHp; cbn [elements]; rewrite <- ?app_assoc; cbn; now rewrite <- ?app_assoc.
Qed.

Lemma elements_paint : forall c t, elements (paint c t) = elements t.
Proof. now destruct t. Qed.

Ltac lists := cbn [elements zip pl pr app]; rewrite ?elements_zip; cbn [elements pl pr app paint]; rewrite ?elements_paint;
  repeat (rewrite <- app_assoc || rewrite <- app_comm_cons || rewrite app_nil_r || cbn [app]); try reflexivity.

(** ** insertion *)
Lemma balance_elements : forall p nc nl ni nk nv nr t,
  balance_tree nc nl ni nk nv nr p = Ok t ->
  elements t = pl p ++ (elements nl ++ (ni, nk, nv) :: elements nr) ++ pr p.
Proof.
  fix IH 1. intros p nc nl ni nk nv nr t H.
  destruct p as [|[] pi pk pv prr up|[] pll pi pk pv up]; cbn in H.
  - injection H as <-. lists.
  - destruct up as [|gc gi gk gv u up2|gc u gi gk gv up2]; [discriminate| |];
      destruct (redp u); try (apply IH in H; rewrite H; lists); injection H as <-; lists.
  - injection H as <-. lists.
  - destruct up as [|gc gi gk gv u up2|gc u gi gk gv up2]; [discriminate| |];
      destruct (redp u); try (apply IH in H; rewrite H; lists); injection H as <-; lists.
  - injection H as <-. lists.
Qed.

(** red-black invariant, with black height *)
Fixpoint rb t (n : nat) : Prop :=
  match t with
  | E => n = O
  | T Red l _ _ _ r => rb l n /\ rb r n /\ blackp l = true /\ blackp r = true
  | T Black l _ _ _ r => exists m, n = S m /\ rb l m /\ rb r m
  end.
Definition up_black p : Prop := match p with Top | PL Red _ _ _ _ _ | PR Red _ _ _ _ _ => False | _ => True end.
(** [ctx p n]: filling the hole with a black-rooted tree of black height n gives a
    red-black tree *)
Fixpoint ctx p (n : nat) : Prop :=
  match p with
  | Top => True
  | PL Red _ _ _ r up => rb r n /\ blackp r = true /\ ctx up n /\ up_black up
  | PR Red l _ _ _ up => rb l n /\ blackp l = true /\ ctx up n /\ up_black up
  | PL Black _ _ _ r up => rb r n /\ ctx up (S n)
  | PR Black l _ _ _ up => rb l n /\ ctx up (S n)
  end.
Definition rbroot t : Prop := blackp t = true /\ exists n, rb t n.

Lemma rb_zip_gen : forall p t n, rb t n -> ctx p n ->
  (blackp t = true \/ up_black p) -> rbroot (zip t p).
Proof.
  induction p as [|c i k v r up IH|c l i k v up IH]; intros t n Ht Hc Hb; cbn [zip].
  - destruct Hb as [Hb|[]]. split; eauto.
  - destruct c; cbn in Hc.
    + destruct Hc as (Hr & Hbr & Hu & Hub). destruct Hb as [Hb|[]].
      apply (IH _ n); auto. cbn. auto.
    + destruct Hc as (Hr & Hu). apply (IH _ (S n)); auto. cbn. eauto.
  - destruct c; cbn in Hc.
    + destruct Hc as (Hr & Hbr & Hu & Hub). destruct Hb as [Hb|[]].
      apply (IH _ n); auto. cbn. auto.
    + destruct Hc as (Hr & Hu). apply (IH _ (S n)); auto. cbn. eauto.
Qed.

(** conversely, cutting a red-black tree *)
Lemma rb_unzip : forall p t, rbroot (zip t p) ->
  exists n, rb t n /\ ctx p n /\ (blackp t = true \/ up_black p).
Proof.
  induction p as [|c i k v r up IH|c l i k v up IH]; intros t H; cbn [zip] in H.
  - destruct H as [Hb [n Hn]]. exists n. cbn. auto.
  - apply IH in H. destruct H as (n & H1 & H2 & H3). destruct c; cbn in H1.
    + exists n. cbn. destruct H3 as [|]; [discriminate|]. intuition.
    + destruct H1 as (m & -> & Hl & Hr). exists m. cbn. auto.
  - apply IH in H. destruct H as (n & H1 & H2 & H3). destruct c; cbn in H1.
    + exists n. cbn. destruct H3 as [|]; [discriminate|]. intuition.
    + destruct H1 as (m & -> & Hl & Hr). exists m. cbn. auto.
Qed.

Lemma rb_paint_black : forall t n, redp t = true -> rb t n -> rb (paint Black t) (S n) /\ blackp (paint Black t) = true.
Proof. destruct t as [|[]]; cbn; intros; try discriminate. split; [exists n; intuition|auto]. Qed.
Lemma redp_blackp : forall t, redp t = negb (blackp t).
Proof. now destruct t as [|[]]. Qed.

Lemma balance_rb : forall p nl ni nk nv nr n,
  rb nl n -> rb nr n -> blackp nl = true -> blackp nr = true -> ctx p n ->
  exists t, balance_tree Red nl ni nk nv nr p = Ok t /\ rbroot t.
Proof.
  fix IH 1. intros p nl ni nk nv nr n Hl Hr Bl Br Hc.
  destruct p as [|[] pi pk pv prr up|[] pll pi pk pv up]; cbn in Hc; cbn [balance_tree].
  - eexists; split; [reflexivity|]. split; [reflexivity|]. exists (S n). cbn. eauto.
  - destruct Hc as (Hp & Bp & Hu & Ub).
    destruct up as [|[] gi gk gv u up2|[] u gi gk gv up2]; cbn in Ub; try contradiction; cbn in Hu;
      destruct Hu as [Hu Hup2]; destruct (redp u) eqn:Eu.
    + destruct (rb_paint_black _ _ Eu Hu). apply (IH up2 _ _ _ _ _ (S n)); cbn; eauto 10.
    + rewrite redp_blackp in Eu. apply negb_false_iff in Eu.
      eexists; split; [reflexivity|]. eapply rb_zip_gen; [| exact Hup2 | left; reflexivity].
      cbn. exists n. repeat split; auto.
    + destruct (rb_paint_black _ _ Eu Hu). apply (IH up2 _ _ _ _ _ (S n)); cbn; eauto 10.
    + rewrite redp_blackp in Eu. apply negb_false_iff in Eu.
      eexists; split; [reflexivity|]. eapply rb_zip_gen; [| exact Hup2 | left; reflexivity].
      cbn. exists n. repeat split; auto.
  - eexists; split; [reflexivity|]. destruct Hc as [Hp Hu]. eapply (rb_zip_gen _ _ n); cbn; auto.
  - destruct Hc as (Hp & Bp & Hu & Ub).
    destruct up as [|[] gi gk gv u up2|[] u gi gk gv up2]; cbn in Ub; try contradiction; cbn in Hu;
      destruct Hu as [Hu Hup2]; destruct (redp u) eqn:Eu.
    + destruct (rb_paint_black _ _ Eu Hu). apply (IH up2 _ _ _ _ _ (S n)); cbn; eauto 10.
    + rewrite redp_blackp in Eu. apply negb_false_iff in Eu.
      eexists; split; [reflexivity|]. eapply rb_zip_gen; [| exact Hup2 | left; reflexivity].
      cbn. exists n. repeat split; auto.
    + destruct (rb_paint_black _ _ Eu Hu). apply (IH up2 _ _ _ _ _ (S n)); cbn; eauto 10.
    + rewrite redp_blackp in Eu. apply negb_false_iff in Eu.
      eexists; split; [reflexivity|]. eapply rb_zip_gen; [| exact Hup2 | left; reflexivity].
      cbn. exists n. repeat split; auto.
  - eexists; split; [reflexivity|]. destruct Hc as [Hp Hu]. eapply (rb_zip_gen _ _ n); cbn; auto.
Qed.

(** ** deletion *)
Lemma round_L : forall child pc pi pk pv s up n m,
  rb child n -> blackp child = true -> rb s (S n) -> blackp s = true ->
  (if isred pc then m = S n /\ ctx up m /\ up_black up else m = S (S n) /\ ctx up m) ->
  exists o, del_round_L child pc pi pk pv s up = Ok o /\
    match o with
    | Done t => rbroot t /\ elements t = pl up ++ elements child ++ ((pi, pk, pv) :: elements s ++ pr up)
    | Recur c up' => up' = up /\ pc = Black /\ rb c (S n) /\ blackp c = true
        /\ elements c = elements child ++ (pi, pk, pv) :: elements s
    end.
Proof.
  intros child pc pi pk pv s up n m Hc Bc Hs Bs Hu.
  destruct s as [|[] sl si sk sv sr]; [discriminate Hs|discriminate Bs|].
  cbn in Hs. destruct Hs as (n' & E & Hsl & Hsr). injection E as <-.
  unfold del_round_L.
  destruct pc; cbn [isblack isred negb andb] in *.
  - destruct Hu as (-> & Hu & Hub).
    destruct (blackp sl) eqn:Bl; destruct (blackp sr) eqn:Br; cbn [andb].
    + eexists; split; [reflexivity|]. split; [|lists].
      eapply rb_zip_gen; [|exact Hu|left; reflexivity]. cbn. exists n. auto 10.
    + destruct sl as [|[] a xi xk xv b]; try discriminate Bl;
      (destruct sr as [|[] c ci ck cv d]; try discriminate Br; cbn in Hsr);
      (eexists; split; [reflexivity|]; split; [|lists]);
      (eapply rb_zip_gen; [|exact Hu|right; exact Hub]);
      (cbn; cbn in Hsl; intuition eauto).
    + destruct sl as [|[] a xi xk xv b]; try discriminate Bl. cbn in Hsl.
      eexists; split; [reflexivity|]; split; [|lists].
      eapply rb_zip_gen; [|exact Hu|right; exact Hub].
      cbn. intuition eauto.
    + destruct sl as [|[] a xi xk xv b]; try discriminate Bl. cbn in Hsl.
      destruct sr as [|[] c ci ck cv d]; try discriminate Br; cbn in Hsr.
      eexists; split; [reflexivity|]; split; [|lists].
      eapply rb_zip_gen; [|exact Hu|right; exact Hub].
      cbn. intuition eauto.
      exists n. cbn. intuition.
  - destruct Hu as (-> & Hu).
    destruct (blackp sl) eqn:Bl; destruct (blackp sr) eqn:Br; cbn [andb].
    + eexists; split; [reflexivity|]. cbn. repeat split; auto. exists n. auto 10.
    + destruct sl as [|[] a xi xk xv b]; try discriminate Bl;
      (destruct sr as [|[] c ci ck cv d]; try discriminate Br; cbn in Hsr);
      (eexists; split; [reflexivity|]; split; [|lists]);
      (eapply rb_zip_gen; [|exact Hu|left; reflexivity]);
      (cbn; cbn in Hsl; intuition eauto 10).
    + destruct sl as [|[] a xi xk xv b]; try discriminate Bl. cbn in Hsl.
      eexists; split; [reflexivity|]; split; [|lists].
      eapply rb_zip_gen; [|exact Hu|left; reflexivity].
      cbn. intuition eauto 10.
    + destruct sl as [|[] a xi xk xv b]; try discriminate Bl. cbn in Hsl.
      destruct sr as [|[] c ci ck cv d]; try discriminate Br; cbn in Hsr.
      eexists; split; [reflexivity|]; split; [|lists].
      eapply rb_zip_gen; [|exact Hu|left; reflexivity].
      cbn. exists (S n). intuition eauto. exists n. cbn. intuition.
Qed.

Lemma round_R : forall child pc pi pk pv s up n m,
  rb child n -> blackp child = true -> rb s (S n) -> blackp s = true ->
  (if isred pc then m = S n /\ ctx up m /\ up_black up else m = S (S n) /\ ctx up m) ->
  exists o, del_round_R child pc pi pk pv s up = Ok o /\
    match o with
    | Done t => rbroot t /\ elements t = pl up ++ elements s ++ ((pi, pk, pv) :: elements child ++ pr up)
    | Recur c up' => up' = up /\ pc = Black /\ rb c (S n) /\ blackp c = true
        /\ elements c = elements s ++ (pi, pk, pv) :: elements child
    end.
Proof.
  intros child pc pi pk pv s up n m Hc Bc Hs Bs Hu.
  destruct s as [|[] sl si sk sv sr]; [discriminate Hs|discriminate Bs|].
  cbn in Hs. destruct Hs as (n' & E & Hsl & Hsr). injection E as <-.
  unfold del_round_R.
  destruct pc; cbn [isblack isred negb andb] in *.
  - destruct Hu as (-> & Hu & Hub).
    destruct (blackp sr) eqn:Br; destruct (blackp sl) eqn:Bl; cbn [andb].
    + eexists; split; [reflexivity|]. split; [|lists].
      eapply rb_zip_gen; [|exact Hu|left; reflexivity]. cbn. exists n. auto 10.
    + destruct sr as [|[] a xi xk xv b]; try discriminate Br;
      (destruct sl as [|[] c ci ck cv d]; try discriminate Bl; cbn in Hsl);
      (eexists; split; [reflexivity|]; split; [|lists]);
      (eapply rb_zip_gen; [|exact Hu|right; exact Hub]);
      (cbn; cbn in Hsr; intuition eauto).
    + destruct sr as [|[] a xi xk xv b]; try discriminate Br. cbn in Hsr.
      eexists; split; [reflexivity|]; split; [|lists].
      eapply rb_zip_gen; [|exact Hu|right; exact Hub].
      cbn. intuition eauto.
    + destruct sr as [|[] a xi xk xv b]; try discriminate Br. cbn in Hsr.
      destruct sl as [|[] c ci ck cv d]; try discriminate Bl; cbn in Hsl.
      eexists; split; [reflexivity|]; split; [|lists].
      eapply rb_zip_gen; [|exact Hu|right; exact Hub].
      cbn. intuition eauto.
      exists n. cbn. intuition.
  - destruct Hu as (-> & Hu).
    destruct (blackp sr) eqn:Br; destruct (blackp sl) eqn:Bl; cbn [andb].
    + eexists; split; [reflexivity|]. cbn. repeat split; auto. exists n. auto 10.
    + destruct sr as [|[] a xi xk xv b]; try discriminate Br;
      (destruct sl as [|[] c ci ck cv d]; try discriminate Bl; cbn in Hsl);
      (eexists; split; [reflexivity|]; split; [|lists]);
      (eapply rb_zip_gen; [|exact Hu|left; reflexivity]);
      (cbn; cbn in Hsr; intuition eauto 10).
    + destruct sr as [|[] a xi xk xv b]; try discriminate Br. cbn in Hsr.
      eexists; split; [reflexivity|]; split; [|lists].
      eapply rb_zip_gen; [|exact Hu|left; reflexivity].
      cbn. intuition eauto 10.
    + destruct sr as [|[] a xi xk xv b]; try discriminate Br. cbn in Hsr.
      destruct sl as [|[] c ci ck cv d]; try discriminate Bl; cbn in Hsl.
      eexists; split; [reflexivity|]; split; [|lists].
      eapply rb_zip_gen; [|exact Hu|left; reflexivity].
      cbn. exists (S n). intuition eauto. exists n. cbn. intuition.
Qed.

Lemma del_recur_ok : forall p child n, rb child n -> blackp child = true -> ctx p (S n) ->
  exists t, del_recur child p = Ok t /\ rbroot t /\ elements t = pl p ++ elements child ++ pr p.
Proof.
  induction p as [|pc pi pk pv s up IH|pc s pi pk pv up IH]; intros child n Hc Bc Hx; cbn [del_recur].
  - exists child. repeat split; eauto. cbn. now rewrite app_nil_r.
  - destruct s as [|[] sl si sk sv sr].
    + exfalso. destruct pc; cbn in Hx; destruct Hx as [Hx _]; discriminate.
    + (* red sibling *)
      destruct pc; cbn in Hx; [intuition discriminate|].
      destruct Hx as ((Hsl & Hsr & Bl & Br) & Hu).
      destruct (round_L child Red pi pk pv sl (PL Black si sk sv sr up) n (S n)) as (o & Ho & P); auto.
      { cbn. auto. }
      rewrite Ho. cbn [bind]. destruct o as [t|c' up']; [|destruct P as (_ & P & _); discriminate].
      exists t. split; [reflexivity|]. destruct P as [P1 P2]. split; [exact P1|]. rewrite P2; lists.
    + destruct (round_L child pc pi pk pv (T Black sl si sk sv sr) up n (if isred pc then S n else S (S n))) as (o & Ho & P); auto.
      { destruct pc; cbn in Hx; intuition. }
      { destruct pc; cbn in Hx; cbn; intuition. }
      rewrite Ho. cbn [bind]. destruct o as [t|c' up'].
      * exists t. split; [reflexivity|]. destruct P as [P1 P2]. split; [exact P1|]. rewrite P2; lists.
      * destruct P as (-> & -> & R & B & El). destruct Hx as [_ Hx].
        destruct (IH c' (S n)) as (t & E1 & E2 & E3); auto.
        exists t. split; [exact E1|]. split; [exact E2|]. rewrite E3, El; lists.
  - destruct s as [|[] sl si sk sv sr].
    + exfalso. destruct pc; cbn in Hx; destruct Hx as [Hx _]; discriminate.
    + destruct pc; cbn in Hx; [intuition discriminate|].
      destruct Hx as ((Hsl & Hsr & Bl & Br) & Hu).
      destruct (round_R child Red pi pk pv sr (PR Black sl si sk sv up) n (S n)) as (o & Ho & P); auto.
      { cbn. auto. }
      rewrite Ho. cbn [bind]. destruct o as [t|c' up']; [|destruct P as (_ & P & _); discriminate].
      exists t. split; [reflexivity|]. destruct P as [P1 P2]. split; [exact P1|]. rewrite P2; lists.
    + destruct (round_R child pc pi pk pv (T Black sl si sk sv sr) up n (if isred pc then S n else S (S n))) as (o & Ho & P); auto.
      { destruct pc; cbn in Hx; intuition. }
      { destruct pc; cbn in Hx; cbn; intuition. }
      rewrite Ho. cbn [bind]. destruct o as [t|c' up'].
      * exists t. split; [reflexivity|]. destruct P as [P1 P2]. split; [exact P1|]. rewrite P2; lists.
      * destruct P as (-> & -> & R & B & El). destruct Hx as [_ Hx].
        destruct (IH c' (S n)) as (t & E1 & E2 & E3); auto.
        exists t. split; [exact E1|]. split; [exact E2|]. rewrite E3, El; lists.
Qed.

(** A node of colour c with a single possible child: removing it. *)
Lemma delete_node1_ok : forall c child p n,
  (if isred c then rb child n /\ ctx p n /\ blackp child = true
   else rb child n /\ ctx p (S n)) ->
  exists t, delete_node1 c child p = Ok t /\ rbroot t /\ elements t = pl p ++ elements child ++ pr p.
Proof.
  intros [] child p n H; cbn in H; unfold delete_node1; cbn [isred].
  - destruct H as (H1 & H2 & B). eexists; split; [reflexivity|]. split; [|apply elements_zip].
    eapply rb_zip_gen; eauto.
  - destruct H as (H1 & H2). destruct (redp child) eqn:R.
    + destruct (rb_paint_black _ _ R H1). eexists; split; [reflexivity|]. split.
      * eapply rb_zip_gen; eauto.
      * rewrite elements_zip, elements_paint. reflexivity.
    + eapply del_recur_ok; eauto. rewrite redp_blackp in R. now apply negb_false_iff in R.
Qed.

Lemma rightmost_spec : forall r c l i k v p yc yl yi yk yv q,
  rightmost c l i k v r p = (yc, yl, yi, yk, yv, q) ->
  zip (T yc yl yi yk yv E) q = zip (T c l i k v r) p /\ pr q = pr p.
Proof.
  induction r as [|c' l' IHl i' k' v' r' IHr]; cbn; intros * H.
  - inversion H; subst; auto.
  - apply IHr in H. destruct H as [H1 H2]. split; auto.
Qed.
Lemma leftmost_spec : forall l c i k v r p yc yr yi yk yv q,
  leftmost c l i k v r p = (yc, yr, yi, yk, yv, q) ->
  zip (T yc E yi yk yv yr) q = zip (T c l i k v r) p /\ pl q = pl p.
Proof.
  induction l as [|c' l' IHl i' k' v' r' IHr]; cbn; intros * H.
  - inversion H; subst; auto.
  - apply IHl in H. destruct H as [H1 H2]. split; auto.
Qed.

Lemma zip_app : forall q p t, zip t (path_app q p) = zip (zip t q) p.
Proof. induction q; intros; cbn; auto. Qed.
Lemma pl_app : forall q p, pl (path_app q p) = pl p ++ pl q.
Proof. induction q; intros; cbn; auto; [now rewrite app_nil_r|]. rewrite IHq. now rewrite <- app_assoc. Qed.
Lemma pr_app : forall q p, pr (path_app q p) = pr q ++ pr p.
Proof. induction q; intros; cbn; auto. rewrite IHq. now rewrite <- app_assoc. Qed.

(** replacing the identity/key/value of a path frame does not matter to ctx *)
Lemma ctx_app_swap : forall q c i k v i' k' v' r p n,
  ctx (path_app q (PL c i k v r p)) n -> ctx (path_app q (PL c i' k' v' r p)) n.
Proof.
  induction q as [|qc qi qk qv qr up IH|qc ql qi qk qv up IH]; intros * H; cbn [path_app] in *.
  - exact H.
  - destruct qc; cbn in *; [destruct H as (A & B & C & D); repeat split; auto; [eapply IH; eauto|]|].
    + destruct up; cbn in *; auto.
    + destruct H; split; eauto.
  - destruct qc; cbn in *; [destruct H as (A & B & C & D); repeat split; auto; [eapply IH; eauto|]|].
    + destruct up; cbn in *; auto.
    + destruct H; split; eauto.
Qed.

Lemma delete_node_ok : forall c l i k v r p, rbroot (zip (T c l i k v r) p) ->
  exists t, delete_node c l i k v r p = Ok t /\ rbroot t /\
    elements t = pl p ++ elements l ++ elements r ++ pr p.
Proof.
  intros c l i k v r p H. unfold delete_node.
  assert (H0 : exists n, rb (T c l i k v r) n /\ ctx p n) by (apply rb_unzip in H; firstorder).
  destruct H0 as (n & Hn & Hp).
  destruct l as [|lc ll li lk lv lr].
  - destruct (delete_node1_ok c r p (if isred c then n else pred n)) as (t & E1 & E2 & E3).
    { destruct c; cbn in *; intuition; destruct Hn as (m & -> & _ & Hr); cbn; auto. }
    exists t. split; [exact E1|]. split; auto.
  - destruct r as [|rc rl ri rk rv rr].
    + destruct (delete_node1_ok c (T lc ll li lk lv lr) p (if isred c then n else pred n)) as (t & E1 & E2 & E3).
      { destruct c; cbn in *; intuition; destruct Hn as (m & -> & Hr & _); cbn; auto. }
      exists t. split; [exact E1|]. split; auto.
    + destruct (rightmost lc ll li lk lv lr Top) as [[[[[yc yl] yi] yk] yv] q] eqn:R.
      apply rightmost_spec in R. destruct R as [R1 R2]. cbn [zip pr] in R1, R2.
      set (r := T rc rl ri rk rv rr) in *.
      assert (HH : rbroot (zip (T yc yl yi yk yv E) (path_app q (PL c i k v r p)))).
      { rewrite zip_app, R1. exact H. }
      apply rb_unzip in HH. destruct HH as (m & Y1 & Y2 & Y3).
      apply (ctx_app_swap _ _ _ _ _ yi yk yv) in Y2.
      destruct (delete_node1_ok yc yl (path_app q (PL c yi yk yv r p)) (if isred yc then m else pred m)) as (t & E1 & E2 & E3).
      { destruct yc; cbn in Y1 |- *; [intuition|]. destruct Y1 as (m' & -> & Y1 & _). cbn. auto. }
      exists t. split; [exact E1|]. split; [exact E2|]. rewrite E3.
      rewrite pl_app, pr_app, R2. cbn [pl pr app].
      pose proof (f_equal elements R1) as R1'. rewrite elements_zip in R1'.
      cbn [elements pl pr app] in R1'. rewrite R2 in R1'. cbn [pr] in R1'. rewrite app_nil_r in R1'.
      cbn [elements]. rewrite <- R1'. repeat (rewrite <- app_assoc; cbn [app]). reflexivity.
Qed.
End P.
