(** Laying out a document that has been laid out: the walk through both. *)

From Coq Require Import String List NArith Bool Arith Lia.
From Verif Require Import Text Kind Green SpecParser SpecSyntax SpecFormat Format FmtLang FmtPieces FmtSteps FmtTrivia FmtRun FmtNode FmtTree FmtDoc FmtEmit FmtPlain FmtFlags
  Respace Relex FmtGap ThmReparse FmtSame FmtAlike FmtTidy SpecLayout FmtLayout FmtTwice.
From Verif Require SpecComplete.
Import ListNotations.
Local Open Scope list_scope.

(** ** Well-formed trees *)

Record TameN (k : kind) (cs : list green) : Prop :=
  { t_els : Forall (fun c => significant c = true \/ TrivEl c) cs
  ; t_meet : nomeet cs
  ; t_trail : notrail_l cs
  ; t_lead : loose (Node k cs) = false -> nolead_l cs
  ; t_fit : fit cs
  ; t_empty : filter significant cs = [] -> loose (Node k cs) = true
  ; t_first : forall y r, filter significant cs = y :: r ->
      special y = false /\ instruction y && negb (kind_eqb k OPERAND) = special (Node k cs) }.
Definition Tame (g : green) : Prop := forall k cs, Sub g (Node k cs) -> TameN k cs.
Lemma Tame_children k cs c : Tame (Node k cs) -> In c cs -> Tame c.
Proof. intros H Hc k' cs' Hs. apply H. now apply Sub_child with c. Qed.
Lemma Tame_here k cs : Tame (Node k cs) -> TameN k cs.
Proof. intros H. apply H. constructor. Qed.

(** Comments and empty lines are kept; no comment is in front of an
    abbreviated expression. *)
Record KeptN (k : kind) (cs : list green) : Prop :=
  { k_lead : loose (Node k cs) = true -> forall pre r, cs = pre ++ r -> existsb significant pre = false -> existsb a_comment pre = false
  ; k_drop : forall a x pre y r, cs = a ++ x :: pre ++ y :: r -> significant x = true -> existsb significant pre = false ->
      dropped_before k (token_in L_PAREN cs) (rev (filter significant (a ++ [x]))) y = true -> kept_between x pre = false
  ; k_spec : forall a pre y r, cs = a ++ pre ++ y :: r -> existsb significant pre = false -> existsb a_comment pre = true ->
      special y = false }.
Definition Kept (g : green) : Prop := forall k cs, Sub g (Node k cs) -> KeptN k cs.
Lemma Kept_children k cs c : Kept (Node k cs) -> In c cs -> Kept c.
Proof. intros H Hc k' cs' Hs. apply H. now apply Sub_child with c. Qed.
Lemma Kept_here k cs : Kept (Node k cs) -> KeptN k cs.
Proof. intros H. apply H. constructor. Qed.

(** The children in a row, after the first. *)
Record Suffix (l : list green) : Prop :=
  { s_els : Forall (fun c => significant c = true \/ TrivEl c) l
  ; s_meet : nomeet l
  ; s_trail : notrail_l l
  ; s_fit : fit l
  ; s_tame : Forall Tame l }.
Lemma suffix_app a l : Suffix (a ++ l) -> Suffix l.
Proof.
  intros [H1 H2 H3 H4 H5]. split.
  - now apply Forall_app in H1.
  - exact (nomeet_suffix _ _ H2).
  - exact (notrail_suffix _ _ H3).
  - intros b x y c E. apply (H4 (a ++ b) x y c). now rewrite E, <- app_assoc.
  - now apply Forall_app in H5.
Qed.
Lemma suffix_node k cs : Tame (Node k cs) -> Suffix cs.
Proof.
  intros H. destruct (Tame_here _ _ H). split; auto. apply Forall_forall. intros c Hc. eapply Tame_children; eauto.
Qed.
Lemma suffix_sig l : Suffix l -> l = [] \/ exists pre y r, l = pre ++ y :: r /\ significant y = true /\ existsb significant pre = false
  /\ Forall TrivEl pre /\ nomeet pre /\ Tame y /\ (loose y = true -> pre = []) /\ filter significant l = y :: filter significant r /\ Suffix r.
Proof.
  intros H. destruct (first_sig l) as [[E0 E1]|(pre & y & r & E & Sy & Hpre & Ef)].
  - left. destruct l as [|c l]; [reflexivity|]. exfalso.
    assert (X : existsb significant (c :: l) = true) by (apply notrail_sig; [apply H|discriminate]). congruence.
  - right. exists pre, y, r. split; [exact E|]. split; [exact Sy|]. split; [exact Hpre|]. destruct H as [H1 H2 H3 H4 H5].
    split; [|split; [|split; [|split; [|split]]]].
    + rewrite E in H1. apply Forall_app in H1 as [H1 _]. apply Forall_forall. intros c Hc. rewrite Forall_forall in H1.
      destruct (H1 c Hc) as [Z|Z]; [|exact Z]. assert (existsb significant pre = true) by (apply existsb_exists; eauto). congruence.
    + rewrite E in H2. exact (nomeet_prefix _ _ H2).
    + rewrite Forall_forall in H5. apply H5. rewrite E. apply in_elt.
    + intros Hl. destruct pre as [|p pre] using rev_ind; [reflexivity|]. exfalso.
      rewrite <- app_assoc in E. cbn [app] in E. rewrite (H4 _ _ _ _ E) in Hl; [discriminate|].
      rewrite existsb_app in Hpre. apply orb_false_elim in Hpre as [_ Hpre]. cbn in Hpre. now rewrite orb_false_r in Hpre.
    + exact Ef.
    + apply (suffix_app (pre ++ [y])). rewrite <- app_assoc. cbn [app]. rewrite <- E. now split.
Qed.

(** ** Tokens *)

Lemma solid_visible1 p : solid p = true -> visible p = true.
Proof. destruct p as [k t]. unfold solid, visible. cbn [fst]. destruct k; try reflexivity; discriminate. Qed.
Lemma triv_vis pre : Forall TrivEl pre -> Forall (fun p => solid p = false) (vis pre).
Proof.
  induction 1 as [|g ts Hg _ IH]; [constructor|]. rewrite vis_cons.
  destruct (triv_cases _ Hg) as [(w & ->)|(k & t & -> & Hk & _)]; [exact IH|].
  destruct (comment_facts true k t Hk) as (V & _). cbn [gtokens filter]. rewrite V. constructor; [|exact IH].
  destruct Hk as [<-|[<-|[]]]; reflexivity.
Qed.
Lemma vis_one g : vis [g] = filter visible (gtokens g).
Proof. unfold vis. rewrite gtokenss_cons. cbn. now rewrite app_nil_r. Qed.
Lemma vis_split pre y r : vis (pre ++ y :: r) = vis pre ++ vis [y] ++ vis r.
Proof. change (pre ++ y :: r) with (pre ++ [y] ++ r). now rewrite !vis_app. Qed.
Lemma vis_node k cs : vis [Node k cs] = vis cs.
Proof. rewrite vis_one, gtokens_node. reflexivity. Qed.

(** Nothing is in front of the first token, or behind the last one. *)
Lemma tokens_start : forall g, Tame g -> significant g = true -> loose g = false -> exists p q, gtokens g = p :: q /\ solid p = true.
Proof.
  apply (green_ind' (fun g => Tame g -> significant g = true -> loose g = false -> exists p q, gtokens g = p :: q /\ solid p = true)).
  - intros k t _ Hs _. exists (k, t), []. split; [reflexivity|exact Hs].
  - intros k cs IH Ht _ Hl. pose proof (Tame_here _ _ Ht) as N.
    destruct (suffix_sig cs (suffix_node _ _ Ht)) as [->|(pre & y & r & E & Sy & Hpre & HT & _ & Hy & _ & Ef & _)].
    + rewrite (t_empty _ _ N eq_refl) in Hl. discriminate.
    + destruct (t_first _ _ N _ _ Ef) as [Hy1 _]. apply special_loose in Hy1.
      assert (pre = []) as ->.
      { pose proof (t_lead _ _ N Hl) as X. rewrite E in X. destruct pre as [|[kp tp|] pre]; [reflexivity| |discriminate Hpre].
        cbn in X, Hpre. rewrite X in Hpre. discriminate. }
      rewrite Forall_forall in IH. destruct (IH y) as (p & q & E1 & E2); auto; [rewrite E; now left|].
      exists p, (q ++ gtokenss r). split; [|exact E2]. rewrite gtokens_node, E. cbn [app]. now rewrite gtokenss_cons, E1.
Qed.
Definition tended (ts : list (kind * text)) : Prop := exists q p, ts = q ++ [p] /\ solid p = true.
Lemma tended_app a b : tended b -> tended (a ++ b).
Proof. intros (q & p & -> & Hp). exists (a ++ q), p. now rewrite app_assoc. Qed.
Definition empty (g : green) : Prop := exists k, g = Node k [] /\ loose g = true.
Lemma row_end : forall n l, length l <= n -> Suffix l ->
  Forall (fun g => significant g = true -> empty g \/ tended (gtokens g)) l -> gtokenss l = [] \/ tended (gtokenss l).
Proof.
  induction n as [|n IH]; intros l Hn Hl HF; [destruct l; [now left|cbn in Hn; lia]|].
  destruct (suffix_sig l Hl) as [->|(pre & y & r & E & Sy & _ & _ & _ & _ & Hlo & _ & Hr)]; [now left|].
  rewrite E in *. apply Forall_app in HF as [_ HF]. inversion HF as [|? ? F1 F2]; subst.
  rewrite app_length in Hn. cbn in Hn. rewrite gtokenss_app, gtokenss_cons.
  destruct (IH r ltac:(lia) Hr F2) as [->|X].
  - rewrite app_nil_r. destruct (F1 Sy) as [(k & -> & Hl0)|X]; [|right; now apply tended_app].
    rewrite (Hlo Hl0). now left.
  - right. now apply tended_app, tended_app.
Qed.
Lemma tokens_end : forall g, Tame g -> significant g = true -> empty g \/ tended (gtokens g).
Proof.
  apply (green_ind' (fun g => Tame g -> significant g = true -> empty g \/ tended (gtokens g))).
  - intros k t _ Hs. right. exists [], (k, t). split; [reflexivity|exact Hs].
  - intros k cs IH Ht _. pose proof (Tame_here _ _ Ht) as N. pose proof (suffix_node _ _ Ht) as S0.
    destruct (suffix_sig cs S0) as [->|(pre & y & r & E & Sy & Hpre & HT & _ & Hy & _ & Ef & Hr)].
    + left. exists k. split; [reflexivity|]. exact (t_empty _ _ N eq_refl).
    + right. destruct (t_first _ _ N _ _ Ef) as [Hy1 _]. apply special_loose in Hy1.
      destruct (tokens_start y Hy Sy Hy1) as (p & q & E1 & _).
      rewrite gtokens_node. destruct (row_end (length cs) cs (Nat.le_refl _) S0) as [X|X]; [|exfalso|exact X].
      * apply Forall_forall. intros g Hg. rewrite Forall_forall in IH. apply IH; [exact Hg|]. eapply Tame_children; eauto.
      * rewrite E, gtokenss_app, gtokenss_cons, E1 in X. apply app_eq_nil in X as [_ X]. discriminate X.
Qed.

Lemma tended_vis g : tended (gtokens g) -> tended (vis [g]).
Proof.
  intros (q & p & E & Hp). rewrite vis_one, E. exists (filter visible q), p. split; [|exact Hp]. rewrite filter_app. cbn [filter].
  now rewrite solid_visible1.
Qed.
Lemma tgo_tended ts c : tended ts -> snd (tgo c ts) = None.
Proof.
  intros (q & p & -> & Hp). rewrite tgo_app. destruct (tgo c q) as [g e]. cbn [tgo]. rewrite (solid_visible1 _ Hp). reflexivity.
Qed.

(** The tokens that are neither white space nor comments. *)
Lemma bare_solid : forall g, significant g = true -> Tame g -> filter solid (gtokens g) = gtokens (bare g).
Proof.
  apply (green_ind' (fun g => significant g = true -> Tame g -> filter solid (gtokens g) = gtokens (bare g))).
  - intros k t Hs _. cbn [gtokens filter bare]. unfold solid. cbn [fst]. cbn [significant] in Hs. now rewrite Hs.
  - intros k cs IH _ Ht. rewrite bare_tokens, gtokens_node. pose proof (t_els _ _ (Tame_here _ _ Ht)) as He.
    assert (Hc : forall c, In c cs -> Tame c) by (intros; eapply Tame_children; eauto). clear Ht.
    induction cs as [|c cs IHcs]; [reflexivity|]. inversion IH as [|? ? I1 I2]; subst. inversion He as [|? ? E1 E2]; subst.
    rewrite gtokenss_cons, bare_tokens_cons, filter_app. f_equal.
    + destruct (significant c) eqn:Es; [apply I1; auto; apply Hc; now left|].
      destruct c as [kc tc|]; [|discriminate Es]. cbn [gtokens filter]. unfold solid. cbn [fst]. cbn [significant] in Es. now rewrite Es.
    + apply IHcs; auto. intros c0 Hc0. apply Hc. now right.
Qed.

(** ** Layouts *)

Section Spaced.
  Variables (step : nat) (sp : bool).
  Notation lay := (lay step sp).
  Notation row k pb n := (lay_row step sp lay k pb n).
  Notation front := (in_front step sp).
  Notation mo := (more step).

  Lemma row_split k pb n before pre y r : existsb significant pre = false -> significant y = true -> forall ts,
    row k pb n before ts (pre ++ y :: r)
    = front k pb (n + mo (inner k pb y)) before (ts ++ pre) y
      ++ lay (n + mo (inner k pb y) + mo (deep y)) y ++ row k pb n (y :: before) [] r.
  Proof.
    intros Hp Hy. induction pre as [|g pre IH]; intros ts; cbn [app lay_row].
    - rewrite Hy, app_nil_r. reflexivity.
    - cbn [existsb] in Hp. apply orb_false_elim in Hp as [H1 H2]. rewrite H1, (IH H2), <- app_assoc. reflexivity.
  Qed.

  Lemma lay_first n k pre y r : existsb significant pre = false -> significant y = true ->
    let cs := pre ++ y :: r in let pb := token_in L_PAREN cs in let m := n + mo (inner k pb y) in
    lay n (Node k cs) = gap_pieces step m (gap_before k [] y) ++ lay (m + mo (deep y)) y ++ row k pb n [y] [] r.
  Proof. intros Hp Hy. cbv zeta. cbn [SpecLayout.lay]. now rewrite row_split. Qed.
  Lemma gap_first k y m : gap_pieces step m (gap_before k [] y)
    = if instruction y && negb (kind_eqb k OPERAND) then [Line (m + 0)] else [].
  Proof. unfold gap_before. destruct (instruction y); [|reflexivity]. destruct (kind_eqb k OPERAND); reflexivity. Qed.

  (** How the layout of a node starts and ends. *)
  Lemma lay_start : forall g, Tame g -> significant g = true -> forall n,
    (special g = false /\ exists t Q, lay n g = Word t :: Q)
    \/ (special g = true /\ (empty g \/ exists m t Q, lay n g = Line m :: Word t :: Q)).
  Proof.
    apply (green_ind' (fun g => Tame g -> significant g = true -> forall n,
      (special g = false /\ exists t Q, lay n g = Word t :: Q)
      \/ (special g = true /\ (empty g \/ exists m t Q, lay n g = Line m :: Word t :: Q)))).
    - intros k t _ _ n. left. split; [reflexivity|]. exists t, []. reflexivity.
    - intros k cs IH Ht _ n. pose proof (Tame_here _ _ Ht) as N.
      destruct (suffix_sig cs (suffix_node _ _ Ht)) as [->|(pre & y & r & E & Sy & Hpre & HT & _ & Hy & _ & Ef & _)].
      + right. pose proof (t_empty _ _ N eq_refl) as Hl. split; [unfold special; now rewrite Hl|]. left. exists k. auto.
      + destruct (t_first _ _ N _ _ Ef) as [Hy1 Hy2]. rewrite E, lay_first by assumption. rewrite gap_first, Hy2, <- E.
        rewrite Forall_forall in IH.
        destruct (IH y ltac:(rewrite E; apply in_elt) Hy Sy (n + mo (inner k (token_in L_PAREN cs) y) + mo (deep y))) as [(_ & t & Q & E1)|[X _]]; [|congruence].
        rewrite E1. destruct (special (Node k cs)); [right|left]; (split; [reflexivity|]); cbn [app]; [right|]; eauto.
  Qed.
  Definition ended (P : list lpiece) : Prop := exists Q t, P = Q ++ [Word t].
  Lemma ended_app a b : ended b -> ended (a ++ b).
  Proof. intros (Q & t & ->). exists (a ++ Q), t. now rewrite app_assoc. Qed.
  Lemma front_loose k pb m before y : loose y = true -> front k pb m before [] y = [].
  Proof.
    intros Hl. assert (Hs : special y = true) by (unfold special; now rewrite Hl).
    unfold in_front. destruct before as [|p b]; [|cbn [kept_between existsb]]; now rewrite special_tight.
  Qed.
  Lemma lay_row_end k pb n : forall len l, length l <= len -> Suffix l ->
    Forall (fun g => significant g = true -> forall n, empty g \/ ended (lay n g)) l -> forall before, row k pb n before [] l = [] \/ ended (row k pb n before [] l).
  Proof.
    induction len as [|len IH]; intros l Hn Hl HF before; [destruct l; [now left|cbn in Hn; lia]|].
    destruct (suffix_sig l Hl) as [->|(pre & y & r & E & Sy & Hpre & _ & _ & _ & Hlo & _ & Hr)]; [now left|].
    rewrite E in *. apply Forall_app in HF as [_ HF]. inversion HF as [|? ? F1 F2]; subst.
    rewrite app_length in Hn. cbn in Hn. rewrite row_split by assumption. cbn [app].
    destruct (IH r ltac:(lia) Hr F2 (y :: before)) as [->|X].
    - rewrite app_nil_r. destruct (F1 Sy (n + mo (inner k pb y) + mo (deep y))) as [(k0 & -> & Hl0)|X]; [|right; now apply ended_app].
      rewrite (Hlo Hl0), front_loose by exact Hl0. now left.
    - right. now apply ended_app, ended_app.
  Qed.
  Lemma lay_end : forall g, Tame g -> significant g = true -> forall n, empty g \/ ended (lay n g).
  Proof.
    apply (green_ind' (fun g => Tame g -> significant g = true -> forall n, empty g \/ ended (lay n g))).
    - intros k t _ _ n. right. exists [], t. reflexivity.
    - intros k cs IH Ht _ n. pose proof (Tame_here _ _ Ht) as N. pose proof (suffix_node _ _ Ht) as S0.
      destruct (suffix_sig cs S0) as [->|(pre & y & r & E & Sy & Hpre & HT & _ & Hy & _ & Ef & Hr)].
      + left. exists k. split; [reflexivity|]. exact (t_empty _ _ N eq_refl).
      + right. destruct (t_first _ _ N _ _ Ef) as [Hy1 _].
        assert (IH' : Forall (fun g => significant g = true -> forall n, empty g \/ ended (lay n g)) cs).
        { apply Forall_forall. intros g Hg. rewrite Forall_forall in IH. apply IH; [exact Hg|]. eapply Tame_children; eauto. }
        rewrite E, lay_first by assumption. rewrite E in IH'. apply Forall_app in IH' as [_ IH']. inversion IH' as [|? ? I1 I2]; subst.
        apply ended_app.
        destruct (lay_row_end k (token_in L_PAREN (pre ++ y :: r)) n (length r) r (Nat.le_refl _) Hr I2 [y]) as [->|X]; [|now apply ended_app].
        rewrite app_nil_r. destruct (I1 Sy (n + mo (inner k (token_in L_PAREN (pre ++ y :: r)) y) + mo (deep y))) as [(k0 & -> & Hl0)|X]; [|exact X].
        apply special_loose in Hy1. congruence.
  Qed.

  (** Each token is printed. *)
  Lemma words_pieces m ts : Forall TrivEl ts -> length (words (flat_map (trivia_pieces sp m) ts)) = length (vis ts).
  Proof.
    induction 1 as [|g ts Hg _ IH]; [reflexivity|]. rewrite vis_cons. cbn [flat_map]. rewrite words_app, !app_length, IH. f_equal.
    destruct (triv_cases _ Hg) as [(w & ->)|(k & t & -> & Hk & _)].
    - cbn [trivia_pieces]. destruct (lines w) as [|[|?]]; reflexivity.
    - destruct (comment_facts sp k t Hk) as (V & _ & W & _). rewrite W. cbn [gtokens filter]. rewrite V. reflexivity.
  Qed.
  Lemma from_vis ts : vis (from_comment ts) = vis ts.
  Proof.
    induction ts as [|[k t|k cs] ts IH]; try reflexivity. destruct k; try reflexivity. cbn [from_comment]. rewrite IH. reflexivity.
  Qed.
  Lemma from_triv ts : Forall TrivEl ts -> Forall TrivEl (from_comment ts).
  Proof. induction 1 as [|[k t|k cs] ts H HT IH]; try constructor; auto. cbn [from_comment]. destruct k; auto; now constructor. Qed.
  Lemma words_front k pb m x b pre y : Forall TrivEl pre ->
    (dropped_before k pb (x :: b) y = true -> kept_between x pre = false) ->
    length (words (front k pb m (x :: b) pre y)) = length (vis pre).
  Proof.
    intros HT Hd. unfold in_front. destruct (kept_between x pre) eqn:Ek.
    - destruct (dropped_before k pb (x :: b) y); [discriminate (Hd eq_refl)|]. destruct x as [kx tx|kx cx]; cbn [between].
      + cbn [words]. rewrite words_pieces, from_vis by now apply from_triv. reflexivity.
      + rewrite words_app, app_length, words_pieces by exact HT.
        destruct pre as [|g pre]; [reflexivity|]. destruct (a_comment g); reflexivity.
    - assert (Hc : existsb a_comment pre = false).
      { apply not_true_iff_false. intros Z. rewrite (kept_comment x pre Z) in Ek. discriminate. }
      apply (vis_comments sp _ HT) in Hc. rewrite Hc. destruct (gap_before k (x :: b) y); reflexivity.
  Qed.
  Definition Counted (g : green) : Prop := Tame g -> Kept g -> significant g = true -> forall n, length (words (lay n g)) = length (vis [g]).
  Lemma row_count k cs n : KeptN k cs -> Forall Counted cs -> Forall Kept cs -> forall len l, length l <= len -> Suffix l ->
    forall a x, cs = a ++ x :: l -> significant x = true ->
    length (words (row k (token_in L_PAREN cs) n (rev (filter significant (a ++ [x]))) [] l)) = length (vis l).
  Proof.
    intros HK HC HKs. induction len as [|len IH]; intros l Hn Hl a x E Hx; [destruct l; [reflexivity|cbn in Hn; lia]|].
    destruct (suffix_sig l Hl) as [->|(pre & y & r & El & Sy & Hpre & HT & _ & Hty & Hlo & _ & Hr)]; [reflexivity|].
    rewrite El in *. rewrite app_length in Hn. cbn in Hn. rewrite row_split by assumption. cbn [app].
    rewrite vis_split, !words_app, !app_length. f_equal; [|f_equal].
    - pose proof (k_drop _ _ HK a x pre y r E Hx Hpre) as Hd. rewrite filter_app in *. cbn [filter] in *. rewrite Hx, rev_app_distr in *. cbn [rev app] in *.
      now apply words_front.
    - rewrite Forall_forall in HC, HKs. assert (Hin : In y cs) by (rewrite E; apply in_or_app; right; right; apply in_elt).
      now apply HC; auto.
    - assert (Eb : y :: rev (filter significant (a ++ [x])) = rev (filter significant ((a ++ x :: pre) ++ [y]))).
      { rewrite !filter_app. cbn [filter]. rewrite Hx, Sy.
        assert (Z : filter significant pre = []).
        { clear -Hpre. induction pre as [|g pre IH]; [reflexivity|]. cbn [existsb filter] in *. apply orb_false_elim in Hpre as [H1 H2]. rewrite H1. auto. }
        rewrite Z, !rev_app_distr. reflexivity. }
      rewrite Eb. apply IH; auto; [lia|]. rewrite E, <- app_assoc. reflexivity.
  Qed.
  Lemma lay_count : forall g, Counted g.
  Proof.
    apply (green_ind' Counted).
    - intros k t _ _ Hs n. rewrite vis_one. cbn [SpecLayout.lay words gtokens filter]. rewrite tok_visible by exact Hs. reflexivity.
    - intros k cs IH Ht Hk _ n. pose proof (Tame_here _ _ Ht) as N. pose proof (suffix_node _ _ Ht) as S0. rewrite vis_node.
      destruct (suffix_sig cs S0) as [->|(pre & y & r & E & Sy & Hpre & HT & _ & Hy & _ & Ef & Hr)]; [reflexivity|].
      assert (V : vis pre = []).
      { destruct (loose (Node k cs)) eqn:El.
        - apply (vis_comments sp _ HT). exact (k_lead _ _ (Kept_here _ _ Hk) El pre _ E Hpre).
        - pose proof (t_lead _ _ N El) as X. rewrite E in X. destruct pre as [|[kp tp|] pre]; [reflexivity| |discriminate Hpre].
          cbn in X, Hpre. rewrite X in Hpre. discriminate. }
      rewrite E, lay_first, vis_split, V by assumption. rewrite <- E. cbn [app]. rewrite gap_first, !words_app, !app_length.
      replace (length (words _)) with 0 by (destruct (_ && _); reflexivity). cbn [Nat.add]. f_equal.
      + rewrite Forall_forall in IH. assert (Hin : In y cs) by (rewrite E; apply in_elt). apply IH; auto. eapply Kept_children; eauto.
      + assert (Eb : [y] = rev (filter significant (pre ++ [y]))).
        { rewrite filter_app. cbn [filter]. rewrite Sy.
          assert (Z : filter significant pre = []).
          { clear -Hpre. induction pre as [|g pre IH]; [reflexivity|]. cbn [existsb filter] in *. apply orb_false_elim in Hpre as [H1 H2]. rewrite H1. auto. }
          now rewrite Z. }
        rewrite Eb. apply (row_count k cs n (Kept_here _ _ Hk) IH ltac:(apply Forall_forall; intros; eapply Kept_children; eauto) (length r)); auto.
  Qed.

  (** ** Both trees *)

  Notation prs := (map (pr sp)).
  Lemma pr_solid p : solid (pr sp p) = solid p.
  Proof. destruct p as [k t]. unfold solid, pr. cbn [fst]. destruct k; reflexivity. Qed.
  Lemma prs_solid l : length (filter solid (prs l)) = length (filter solid l).
  Proof. induction l as [|p l IH]; [reflexivity|]. cbn [map filter]. rewrite pr_solid. destruct (solid p); cbn [length]; congruence. Qed.
  Lemma tended_z (a z : list (kind * text)) : tended (a ++ z) -> length (filter solid z) = 0 -> z = [].
  Proof.
    intros (q & p & E & Hp) Hz. destruct z as [|z0 z] using rev_ind; [reflexivity|]. exfalso. rewrite app_assoc in E.
    apply app_inj_tail in E as [_ ->]. rewrite filter_app, app_length in Hz. cbn [filter] in Hz. rewrite Hp in Hz. cbn in Hz. lia.
  Qed.
  Lemma split_end a b a' b' : a' ++ b' = prs (a ++ b) -> tended a -> tended a' -> length (filter solid a) = length (filter solid a') ->
    a' = prs a /\ b' = prs b.
  Proof.
    rewrite map_app. intros E H H' Hc. apply app_eq_app in E as (z & [[E1 E2]|[E1 E2]]).
    - assert (z = []) as ->.
      { apply (tended_z (prs a)); [now rewrite <- E1|]. rewrite E1, filter_app, app_length, prs_solid in Hc. lia. }
      rewrite app_nil_r in E1. cbn [app] in E2. auto.
    - assert (z = []) as ->.
      { apply (tended_z a'); [|rewrite <- (prs_solid a), E1, filter_app, app_length in Hc; lia]. rewrite <- E1.
        destruct H as (q & p & -> & Hp). exists (prs q), (pr sp p). rewrite map_app, pr_solid. auto. }
      rewrite app_nil_r in E1. cbn [app] in E2. auto.
  Qed.
  Lemma split_start c s b : Forall (fun p => solid p = false) c -> solid s = true -> forall c' s' b',
    c' ++ s' :: b' = prs (c ++ s :: b) -> Forall (fun p => solid p = false) c' -> solid s' = true ->
    c' = prs c /\ s' :: b' = prs (s :: b).
  Proof.
    intros Hc Hs. induction Hc as [|p c Hp Hc IH]; intros c' s' b' E Hc' Hs'; cbn [app map] in *.
    - destruct c' as [|p' c']; [auto|]. injection E as -> _. inversion Hc'; subst. rewrite pr_solid in *. congruence.
    - destruct c' as [|p' c']; cbn [app] in E.
      + injection E as -> _. rewrite pr_solid in Hs'. congruence.
      + injection E as -> E. inversion Hc'; subst. destruct (IH _ _ _ E) as [-> ->]; auto.
  Qed.

  Lemma tgo_count ts : forall c, length (fst (tgo c ts)) = length (filter visible ts).
  Proof.
    induction ts as [|p ts IH]; intros c; [reflexivity|]. cbn [tgo filter]. destruct (visible p); [|apply IH].
    specialize (IH None). destruct (tgo None ts). cbn [fst length] in *. now rewrite IH.
  Qed.
  Lemma tgo_tl ts : forall c d, tl (fst (tgo c ts)) = tl (fst (tgo d ts)).
  Proof.
    induction ts as [|p ts IH]; intros c d; [reflexivity|]. cbn [tgo]. destruct (visible p); [|apply IH]. destruct (tgo None ts). reflexivity.
  Qed.
  Lemma pgaps_tl l : forall c d, tl (fst (pgaps c l)) = tl (fst (pgaps d l)).
  Proof.
    induction l as [|p l IH]; intros c d; [reflexivity|]. destruct p; cbn [pgaps]; try apply IH. destruct (pgaps None l). reflexivity.
  Qed.
  Lemma ended_gap P c : ended P -> snd (pgaps c P) = None.
  Proof. intros (Q & t & ->). rewrite pgaps_app. destruct (pgaps c Q). reflexivity. Qed.
  Lemma ended_chosen P P' : Forall2 Chosen P P' -> ended P -> ended P'.
  Proof.
    intros H (Q & t & ->). apply Forall2_app_inv_l in H as (Q' & R' & _ & H2 & ->). inversion H2 as [|? c ? ? Hc H3]; subst. inversion H3; subst.
    cbn [Chosen] in Hc. subst c. exists Q', t. reflexivity.
  Qed.
  Lemma pgaps_split a b c : pgaps c (a ++ b) = (fst (pgaps c a) ++ fst (pgaps (snd (pgaps c a)) b), snd (pgaps (snd (pgaps c a)) b)).
  Proof. rewrite pgaps_app. destruct (pgaps c a) as [g e]. cbn [fst snd]. destruct (pgaps e b). reflexivity. Qed.
  Lemma tgo_split a b c : tgo c (a ++ b) = (fst (tgo c a) ++ fst (tgo (snd (tgo c a)) b), snd (tgo (snd (tgo c a)) b)).
  Proof. rewrite tgo_app. destruct (tgo c a) as [g e]. cbn [fst snd]. destruct (tgo e b). reflexivity. Qed.

  Lemma empty_bare y y' : empty y -> bare y = bare y' -> Tame y' -> y' = y.
  Proof.
    intros (k & -> & Hl) E Ht. apply bare_nd in E as (cs' & -> & E). cbn in E. symmetry in E. apply map_eq_nil in E.
    destruct (suffix_sig cs' (suffix_node _ _ Ht)) as [->|(pre & y & r & _ & _ & _ & _ & _ & _ & _ & Ef & _)]; [reflexivity|congruence].
  Qed.
  Lemma empty_not y y' : ~ empty y -> bare y = bare y' -> Tame y -> ~ empty y'.
  Proof. intros H E Ht He. apply H. rewrite (empty_bare y' y He (eq_sym E) Ht). exact He. Qed.
  Lemma empty_dec y : empty y \/ ~ empty y.
  Proof.
    destruct (loose y) eqn:E; [|right; intros (k & -> & X); congruence].
    destruct y as [k t|k [|c cs]]; [discriminate E|left; exists k; auto|right; intros (k' & X & _); discriminate X].
  Qed.

  (** A child that prints something. *)
  Lemma child_facts y y' : Tame y -> Tame y' -> significant y = true -> significant y' = true -> bare y = bare y' -> ~ empty y ->
    tended (vis [y]) /\ tended (vis [y']) /\ length (filter solid (vis [y])) = length (filter solid (vis [y']))
    /\ (forall n, ended (lay n y)) /\ (forall c, snd (tgo c (gtokens y')) = None).
  Proof.
    intros H H' S S' E He. pose proof (empty_not _ _ He E H) as He'.
    destruct (tokens_end y H S) as [X|X]; [contradiction|]. destruct (tokens_end y' H' S') as [X'|X']; [contradiction|].
    split; [now apply tended_vis|]. split; [now apply tended_vis|]. split; [|split].
    - now rewrite !vis_one, !solid_visible, !bare_solid, E.
    - intros n. destruct (lay_end y H S n); [contradiction|assumption].
    - intros c. now apply tgo_tended.
  Qed.
  Lemma loose_sig y : loose y = true -> significant y = true.
  Proof. destruct y; [discriminate|reflexivity]. Qed.
  Lemma sig_bare y y' : bare y = bare y' -> significant y = significant y'.
  Proof. intros E. destruct y as [k t|k cs]; [now apply bare_tok in E as ->|]. now apply bare_nd in E as (cs' & -> & _). Qed.

  Definition Again (g : green) : Prop := forall g' n P', Tame g -> Tame g' -> Kept g -> significant g = true -> bare g = bare g' ->
    vis [g'] = prs (vis [g]) -> Forall2 Chosen (lay n g) P' -> tl (fst (pgaps None P')) = tl (fst (tgo None (gtokens g'))) ->
    Partly (lay n g) (lay n g') P'.

  (** The first token of a child, and the rest. *)
  Lemma child_gaps y y' n Py c c' : Tame y -> Tame y' -> significant y = true -> bare y = bare y' -> ~ empty y ->
    Forall2 Chosen (lay n y) Py -> fst (pgaps c Py) = fst (tgo c' (gtokens y')) ->
    (loose y = false -> c' = (if special y then gmore c 1 else c)) /\ tl (fst (pgaps None Py)) = tl (fst (tgo None (gtokens y'))).
  Proof.
    intros H H' S E He HC Eg. split; [|rewrite (pgaps_tl Py None c), Eg; apply tgo_tl].
    intros Hl. rewrite (sig_bare _ _ E) in S. pose proof (loose_bare _ _ E) as El. rewrite Hl in El. symmetry in El.
    destruct (tokens_start y' H' S El) as (p & q & Et & Hp). rewrite Et in Eg. cbn [tgo] in Eg. rewrite (solid_visible1 _ Hp) in Eg.
    rewrite <- (sig_bare _ _ E) in S.
    destruct (lay_start y H S n) as [(Hs & t & Q & EQ)|(Hs & [X|(m & t & Q & EQ)])]; [|contradiction|]; rewrite Hs; rewrite EQ in HC.
    - inversion HC as [|? w ? R Hw HC2]; subst. cbn [Chosen] in Hw. subst w. cbn [pgaps] in Eg.
      destruct (pgaps None R), (tgo None q). cbn [fst] in Eg. congruence.
    - inversion HC as [|? w ? R Hw HC2]; subst. cbn [Chosen] in Hw. subst w. inversion HC2 as [|? w ? R2 Hw HC3]; subst. cbn [Chosen] in Hw. subst w.
      cbn [pgaps] in Eg. destruct (pgaps None R2), (tgo None q). cbn [fst] in Eg. congruence.
  Qed.

  Lemma row_again k cs n : KeptN k cs -> Forall Again cs -> Forall Kept cs -> forall len l, length l <= len -> Suffix l ->
    forall l' a x before' P', Suffix l' -> cs = a ++ x :: l -> significant x = true ->
    map bare (rev (filter significant (a ++ [x]))) = map bare before' ->
    map bare (filter significant l) = map bare (filter significant l') -> vis l' = prs (vis l) ->
    Forall2 Chosen (row k (token_in L_PAREN cs) n (rev (filter significant (a ++ [x]))) [] l) P' ->
    fst (pgaps None P') = fst (tgo None (gtokenss l')) ->
    Partly (row k (token_in L_PAREN cs) n (rev (filter significant (a ++ [x]))) [] l) (row k (token_in L_PAREN cs) n before' [] l') P'.
  Proof.
    intros HK HA HKs. induction len as [|len IH]; intros l Hn Hl l' a x before' P' Hl' E Hx Eb Em Ev HC Eg.
    { destruct l; [|cbn in Hn; lia]. destruct (suffix_sig l' Hl') as [->|(pre' & y' & r' & _ & _ & _ & _ & _ & _ & _ & Ef' & _)].
      - inversion HC; subst. constructor.
      - rewrite Ef' in Em. discriminate Em. }
    destruct (suffix_sig l Hl) as [->|(pre & y & r & El & Sy & Hpre & HT & Hme & Hty & Hlo & Ef & Hr)].
    { destruct (suffix_sig l' Hl') as [->|(pre' & y' & r' & _ & _ & _ & _ & _ & _ & _ & Ef' & _)].
      - inversion HC; subst. constructor.
      - rewrite Ef' in Em. discriminate Em. }
    destruct (suffix_sig l' Hl') as [->|(pre' & y' & r' & El' & Sy' & Hpre' & HT' & Hme' & Hty' & Hlo' & Ef' & Hr')].
    { rewrite Ef in Em. discriminate Em. }
    rewrite Ef, Ef' in Em. cbn [map] in Em. injection Em as Ey Em.
    rewrite El, El' in *. clear El El' Ef Ef'. rewrite app_length in Hn. cbn in Hn.
    assert (Eb2 : y :: rev (filter significant (a ++ [x])) = rev (filter significant ((a ++ x :: pre) ++ [y]))).
    { rewrite !filter_app. cbn [filter]. rewrite Hx, Sy.
      assert (Z : filter significant pre = []).
      { clear -Hpre. induction pre as [|g pre IH]; [reflexivity|]. cbn [existsb filter] in *. apply orb_false_elim in Hpre as [H1 H2]. rewrite H1. auto. }
      rewrite Z, !rev_app_distr. reflexivity. }
    assert (Er : cs = (a ++ x :: pre) ++ y :: r) by (rewrite E, <- app_assoc; reflexivity).
    pose proof (k_drop _ _ HK a x pre y r E Hx Hpre) as Hd.
    assert (Hspec : existsb a_comment pre = true -> special y = false).
    { apply (k_spec _ _ HK (a ++ [x]) pre y r); [|exact Hpre]. rewrite E, <- app_assoc. reflexivity. }
    rewrite row_split in * by assumption. rewrite row_split by assumption. cbn [app] in *.
    rewrite <- (inner_bare k (token_in L_PAREN cs) _ _ Ey), <- (deep_bare _ _ Ey).
    set (pb := token_in L_PAREN cs) in *. set (m := n + mo (inner k pb y)) in *.
    set (before := rev (filter significant (a ++ [x]))) in *.
    apply Forall2_app_inv_l in HC as (Pf & P2 & HCf & HC & ->). apply Forall2_app_inv_l in HC as (Py & Pr & HCy & HCr & ->).
    rewrite !vis_split in Ev.
    assert (Hin : In y cs) by (rewrite Er; apply in_elt).
    rewrite Forall_forall in HA, HKs. pose proof (HA y Hin) as Ay. pose proof (HKs y Hin) as Ky.
    assert (Hbef : exists b, before = x :: b).
    { unfold before. rewrite filter_app. cbn [filter]. rewrite Hx, rev_app_distr. eexists. reflexivity. }
    destruct Hbef as (b & Hbef).
    assert (Next : vis r' = prs (vis r) -> fst (pgaps None Pr) = fst (tgo None (gtokenss r')) ->
      Partly (row k pb n (y :: before) [] r) (row k pb n (y' :: before') [] r') Pr).
    { intros V G. rewrite Eb2. rewrite Eb2 in HCr. apply (IH r ltac:(lia) Hr r' (a ++ x :: pre) y); auto.
      rewrite <- Eb2. cbn [map]. now rewrite Ey, Eb. }
    destruct (empty_dec y) as [He|He].
    { pose proof (empty_bare y y' He Ey Hty') as ->. destruct He as (k0 & Ek0 & Hl0). rewrite (Hlo Hl0), (Hlo' Hl0) in *. cbn [app] in *.
      rewrite front_loose in HCf by exact Hl0. rewrite !front_loose by exact Hl0. inversion HCf; subst. cbn [app] in *.
      change (lay (m + mo (deep (Node k0 []))) (Node k0 [])) with (@nil lpiece) in *. inversion HCy; subst. cbn [app] in *.
      apply Next; [exact Ev|exact Eg]. }
    destruct (child_facts y y' Hty Hty' Sy Sy' Ey He) as (T1 & T2 & T3 & T4 & T5).
    assert (V : vis pre' = prs (vis pre) /\ vis [y'] = prs (vis [y]) /\ vis r' = prs (vis r)).
    { destruct (loose y) eqn:Hl0.
      - rewrite (Hlo eq_refl), (Hlo' ltac:(now rewrite <- (loose_bare _ _ Ey))) in *. cbn [app] in *. change (vis []) with (@nil (kind * text)) in *. cbn [app] in *.
        split; [reflexivity|]. now apply split_end.
      - pose proof (loose_bare _ _ Ey) as Hl1. rewrite Hl0 in Hl1. symmetry in Hl1.
        destruct (tokens_start y Hty Sy Hl0) as (p & q & Ep & Hp). destruct (tokens_start y' Hty' Sy' Hl1) as (p' & q' & Ep' & Hp').
        assert (Vy : vis [y] = p :: filter visible q) by (rewrite vis_one, Ep; cbn [filter]; now rewrite solid_visible1).
        assert (Vy' : vis [y'] = p' :: filter visible q') by (rewrite vis_one, Ep'; cbn [filter]; now rewrite solid_visible1).
        pose proof Ev as Ev2. rewrite Vy, Vy' in Ev2. cbn [app] in Ev2.
        destruct (split_start _ _ _ (triv_vis _ HT) Hp _ _ _ Ev2 (triv_vis _ HT') Hp') as [V1 V2].
        split; [exact V1|]. apply split_end; auto. rewrite Vy, Vy'. cbn [app]. exact V2. }
    destruct V as (V1 & V2 & V3).
    rewrite gtokenss_app, gtokenss_cons in Eg. rewrite !pgaps_split, !tgo_split in Eg. cbn [fst snd] in Eg.
    set (e := snd (pgaps None Pf)) in *. set (e' := snd (tgo None (gtokenss pre'))) in *.
    rewrite (ended_gap Py e (ended_chosen _ _ HCy (T4 _))), T5 in Eg.
    apply app_inj in Eg.
    2:{ rewrite pgaps_length, (words_chosen _ _ HCf), tgo_count. rewrite Hbef in *. rewrite words_front by auto.
        change (filter visible (gtokenss pre')) with (vis pre'). now rewrite V1, map_length. }
    destruct Eg as [G1 Eg]. apply app_inj in Eg.
    2:{ rewrite pgaps_length, (words_chosen _ _ HCy), tgo_count, (lay_count y Hty Ky Sy), <- vis_one. now rewrite V2, map_length. }
    destruct Eg as [G2 G3].
    destruct (child_gaps y y' _ Py e e' Hty Hty' Sy Ey He HCy G2) as [G4 G5].
    apply partly_app; [|apply partly_app; [|now apply Next]].
    - destruct (loose y) eqn:Hl0.
      + rewrite (Hlo eq_refl), (Hlo' ltac:(now rewrite <- (loose_bare _ _ Ey))) in *. rewrite front_loose in HCf by exact Hl0.
        rewrite !front_loose by (exact Hl0 || now rewrite <- (loose_bare _ _ Ey)). inversion HCf; subst. constructor.
      + apply front_again; auto.
        * rewrite Hbef. discriminate.
        * intros Hd0 p b0 E0. rewrite E0 in Hbef. injection Hbef as -> _. auto.
    - apply Ay; auto.
  Qed.

  Lemma lead_vis k cs pre y r : Tame (Node k cs) -> cs = pre ++ y :: r -> existsb significant pre = false -> Forall TrivEl pre ->
    (loose (Node k cs) = true -> existsb a_comment pre = false) -> vis pre = [].
  Proof.
    intros Ht E Hpre HT Hl. destruct (loose (Node k cs)) eqn:El.
    - apply (vis_comments sp _ HT). auto.
    - pose proof (t_lead _ _ (Tame_here _ _ Ht) El) as X. rewrite E in X. destruct pre as [|[kp tp|] pre]; [reflexivity| |discriminate Hpre].
      cbn in X, Hpre. rewrite X in Hpre. discriminate.
  Qed.

  Theorem all_again : forall g, Again g.
  Proof.
    apply (green_ind' Again).
    - intros k t g' n P' _ _ _ _ Eb _ HC _. apply bare_tok in Eb as ->. now apply partly_refl.
    - intros k cs IH g' n P' Ht Ht' Hk _ Eb Ev HC Eg. apply bare_nd in Eb as (cs' & -> & Em).
      pose proof (Tame_here _ _ Ht) as N. pose proof (suffix_node _ _ Ht) as S0. pose proof (suffix_node _ _ Ht') as S0'.
      rewrite !vis_node in Ev. rewrite gtokens_node in Eg.
      destruct (suffix_sig cs S0) as [->|(pre & y & r & E & Sy & Hpre & HT & _ & Hy & _ & Ef & Hr)].
      + destruct (suffix_sig cs' S0') as [->|(pre' & y' & r' & _ & _ & _ & _ & _ & _ & _ & Ef' & _)].
        * inversion HC; subst. constructor.
        * rewrite Ef' in Em. discriminate Em.
      + destruct (suffix_sig cs' S0') as [->|(pre' & y' & r' & E' & Sy' & Hpre' & HT' & _ & Hy' & _ & Ef' & Hr')].
        { rewrite Ef in Em. discriminate Em. }
        pose proof (token_in_bare L_PAREN _ _ eq_refl Em) as Epb.
        rewrite Ef, Ef' in Em. cbn [map] in Em. injection Em as Ey Em.
        destruct (t_first _ _ N _ _ Ef) as [Hy1 Hy2]. pose proof (special_loose _ Hy1) as Hyl.
        assert (Hyl' : loose y' = false) by now rewrite <- (loose_bare _ _ Ey).
        assert (He : ~ empty y) by (intros (k0 & _ & X); congruence).
        assert (V : vis pre = []).
        { apply (lead_vis k cs pre y r); auto. intros X. exact (k_lead _ _ (Kept_here _ _ Hk) X pre _ E Hpre). }
        destruct (child_facts y y' Hy Hy' Sy Sy' Ey He) as (T1 & T2 & T3 & T4 & T5).
        destruct (tokens_start y Hy Sy Hyl) as (p & q & Ep & Hp). destruct (tokens_start y' Hy' Sy' Hyl') as (p' & q' & Ep' & Hp').
        assert (Vy : vis [y] = p :: filter visible q) by (rewrite vis_one, Ep; cbn [filter]; now rewrite solid_visible1).
        assert (Vy' : vis [y'] = p' :: filter visible q') by (rewrite vis_one, Ep'; cbn [filter]; now rewrite solid_visible1).
        rewrite E, E', !vis_split, V in Ev. cbn [app] in Ev.
        assert (V' : vis pre' = [] /\ vis [y'] = prs (vis [y]) /\ vis r' = prs (vis r)).
        { pose proof Ev as Ev2. rewrite Vy, Vy' in Ev2. cbn [app] in Ev2.
          destruct (split_start [] p (filter visible q ++ vis r) ltac:(constructor) Hp _ _ _ Ev2 (triv_vis _ HT') Hp') as [V1 V2].
          split; [exact V1|]. apply split_end; auto. rewrite Vy, Vy'. exact V2. }
        destruct V' as (V1 & V2 & V3).
        rewrite E in HC |- *. rewrite lay_first in HC |- * by assumption. rewrite E', lay_first by assumption. rewrite <- E, <- E' in *. rewrite <- Epb.
        rewrite <- (inner_bare k (token_in L_PAREN cs) _ _ Ey), <- (deep_bare _ _ Ey).
        rewrite !gap_first in *. rewrite <- (instruction_bare _ _ Ey), Hy2 in *.
        set (pb := token_in L_PAREN cs) in *. set (m := n + mo (inner k pb y)) in *.
        apply Forall2_app_inv_l in HC as (Pf & P2 & HCf & HC & ->). apply Forall2_app_inv_l in HC as (Py & Pr & HCy & HCr & ->).
        assert (Wf : fst (pgaps None Pf) = []).
        { destruct (special (Node k cs)); inversion HCf as [|? w ? R Hw HC2]; subst; [|reflexivity]. inversion HC2; subst. cbn [Chosen] in Hw. subst w. reflexivity. }
        rewrite E', gtokenss_app, gtokenss_cons, !pgaps_split, !tgo_split, Wf in Eg. cbn [fst snd app] in Eg.
        assert (Wf' : fst (tgo None (gtokenss pre')) = []).
        { apply length_zero_iff_nil. rewrite tgo_count. change (length (vis pre') = 0). now rewrite V1. }
        rewrite Wf' in Eg. cbn [app] in Eg. set (e := snd (pgaps None Pf)) in *. set (e' := snd (tgo None (gtokenss pre'))) in *.
        rewrite (ended_gap Py e (ended_chosen _ _ HCy (T4 _))), T5 in Eg.
        assert (Hin : In y cs) by (rewrite E; apply in_elt).
        pose proof (Kept_children _ _ _ Hk Hin) as Ky.
        assert (L1 : length (fst (pgaps e Py)) = length (vis [y])) by (rewrite pgaps_length, (words_chosen _ _ HCy); now apply lay_count).
        assert (L2 : length (fst (tgo e' (gtokens y'))) = length (vis [y'])) by (rewrite tgo_count, vis_one; reflexivity).
        destruct (fst (pgaps e Py)) as [|g1 gs1] eqn:G1; [rewrite Vy in L1; discriminate L1|].
        destruct (fst (tgo e' (gtokens y'))) as [|g2 gs2] eqn:G2; [rewrite Vy' in L2; discriminate L2|].
        cbn [app tl] in Eg. apply app_inj in Eg as [G3 G4].
        2:{ rewrite V2, map_length in L2. cbn [length] in L1, L2. congruence. }
        apply partly_app; [now apply partly_refl|]. apply partly_app.
        * rewrite Forall_forall in IH. apply (IH y Hin); auto.
          rewrite (pgaps_tl Py None e), (tgo_tl (gtokens y') None e'), G1, G2. exact G3.
        * assert (Eb0 : [y] = rev (filter significant (pre ++ [y]))).
          { rewrite filter_app. cbn [filter]. rewrite Sy.
            assert (Z : filter significant pre = []).
            { clear -Hpre. induction pre as [|g pre IH]; [reflexivity|]. cbn [existsb filter] in *. apply orb_false_elim in Hpre as [H1 H2]. rewrite H1. auto. }
            now rewrite Z. }
          rewrite Eb0 in HCr |- *.
          apply (row_again k cs n (Kept_here _ _ Hk) IH ltac:(apply Forall_forall; intros; eapply Kept_children; eauto) (length r)); auto.
          rewrite <- Eb0. cbn [map]. now rewrite Ey.
  Qed.
End Spaced.
