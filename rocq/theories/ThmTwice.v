(** Property C50 for documents with comments: formatting a formatted document
    changes nothing. *)

From Coq Require Import String List NArith Bool Arith Lia.
From Verif Require Import Text Kind Green SpecParser SpecSyntax Lexer LexerFacts Winnow Grammar Sem Lossless Total
  Bounds Lang TokForm Shape ThmParser ThmSyntax Red LineIndex Cursor Doc Ast Nav NavSpec NavFacts SpecAction Action ThmAction
  SpecFormat Format FmtLang FmtPieces FmtSteps FmtTrivia FmtRun FmtNode FmtTree FmtDoc FmtParse FmtRequest ThmFormat
  Respace Relex ThmReparse FmtEmit FmtPlain FmtFlags FmtGap FmtSame FmtAlike FmtTidy FmtAgain ThmAgain SpecLayout FmtLayout ThmLayout FmtTwice FmtWalk.
From Verif Require SpecComplete ThmComplete.
Import ListNotations.
Local Open Scope list_scope.

(** ** The conditions *)

(** An offset or element written without [offset] or [item]. *)
Definition abbreviated (g : green) : bool :=
  match g with Node (OFFSET | ELEM_EXPR) cs => negb (token_in KEYWORD cs) | _ => false end.
(** No comment is in front of an abbreviated offset or element. *)
Definition NoCommentsBeforeAbbreviated (tree : green) : Prop :=
  forall k cs a c t ts y b, Sub tree (Node k cs) -> In c [LINE_COMMENT; BLOCK_COMMENT] ->
  cs = a ++ Tok c t :: ts ++ y :: b -> existsb significant ts = false -> abbreviated y = false.

(** ** First children *)

Definition head3 (k : kind) (segs : list seg) : bool :=
  match segs with
  | SOne y :: r =>
      negb (in_three y)
      && (if is_instr_sym y then nilb r && existsb (kind_eqb k) [ELEM_EXPR; OFFSET] || kind_eqb k OPERAND
          else (negb (existsb (kind_eqb k) [ELEM_EXPR; OFFSET]) || existsb (fun s => match s with SOne (YKw _) => true | _ => false end) segs)
               && (negb (kind_eqb k BLOCK_IF_THEN) || existsb (fun s => match s with SOne (YTk L_PAREN) => true | _ => false end) segs))
  | [SMany l] => kind_eqb k BLOCK_IF_THEN && forallb is_instr_sym l
  | _ => false
  end.
Lemma heads3 k : k <> ROOT -> exists a, alts (ordinary k) = Some a /\ forallb (head3 k) a = true.
Proof. destruct k; intros H; try congruence; eexists; (split; [reflexivity|]); vm_compute; reflexivity. Qed.

Lemma instr_not_three y : is_instr_sym y = true -> in_three y = false.
Proof. destruct y as [|k|k]; try discriminate. destruct k; try discriminate; reflexivity. Qed.
Lemma three_special y g : SymM y g -> in_three y = false -> special g = false.
Proof.
  intros Hm H. apply not_true_iff_false. intros Z. apply special_kind in Z as (k' & cs' & -> & Hk').
  destruct y as [w|k2|k2]; cbn [SymM] in Hm; try contradiction. subst k2. unfold in_three, nd_in in H. rewrite <- not_true_iff_false in H.
  apply H. apply existsb_exists. exists k'. split; [exact Hk'|now apply kind_eqb_eq].
Qed.
Lemma no_token k cs : Forall (fun g => exists y, is_instr_sym y = true /\ SymM y g) (filter significant cs) -> is_trivia_kind k = false ->
  existsb (selects (STok k)) cs = false.
Proof.
  intros X Hs. apply not_true_iff_false. intros Z. apply existsb_exists in Z as (x & Hx & Hx2).
  destruct x as [k' t|]; [|discriminate]. cbn [selects] in Hx2. apply kind_eqb_eq in Hx2. subst k'.
  rewrite Forall_forall in X. destruct (X (Tok k t)) as (y & Hy & Hm).
  - apply filter_In. split; [exact Hx|]. cbn [significant]. now rewrite Hs.
  - destruct y; try discriminate. contradiction.
Qed.
Lemma has_token (f : sym -> bool) k cs segs gs : Forall2 (SegM (fun g => g)) segs gs -> filter significant cs = concat gs ->
  (forall y g, f y = true -> SymM y g -> selects (STok k) g = true) ->
  existsb (fun s => match s with SOne y => f y | _ => false end) segs = true -> existsb (selects (STok k)) cs = true.
Proof.
  intros HS HE Hf H. assert (X : existsb (selects (STok k)) (concat gs) = true).
  { clear HE. induction HS as [|s g segs gs Hg _ IH]; [discriminate|]. cbn [existsb concat] in *. rewrite existsb_app. apply orb_prop in H as [H|H].
    - destruct s as [y|]; [|discriminate]. destruct Hg as (x & -> & Hm). cbn [existsb]. rewrite (Hf y x H Hm). reflexivity.
    - rewrite IH by exact H. apply orb_true_r. }
  rewrite <- HE in X. apply existsb_exists in X as (x & Hx & Hx2). apply filter_In in Hx as [Hx _]. apply existsb_exists. eauto.
Qed.
Lemma head_facts k cs : k <> ROOT -> Matches (ordinary k) (filter significant cs) ->
  (filter significant cs = [] -> loose (Node k cs) = true)
  /\ forall y r, filter significant cs = y :: r -> special y = false /\ instruction y && negb (kind_eqb k OPERAND) = special (Node k cs).
Proof.
  intros Hk Hm. destruct (heads3 k Hk) as (a & Ea & Ha). destruct (alts_ok _ _ _ Ea Hm) as (segs & gs & Hin & HS & HE).
  rewrite forallb_forall in Ha. specialize (Ha _ Hin). unfold head3 in Ha. destruct segs as [|[y0|l] segs]; [discriminate| |].
  - apply andb_prop in Ha as [H1 H2]. apply negb_true_iff in H1. pose proof HS as HS0. inversion HS as [|? g0 ? gs' Hg HS']; subst. destruct Hg as (g & -> & Hy).
    cbn [concat app] in HE. split; [congruence|]. intros y r E. rewrite E in HE. injection HE as <- ->.
    split; [now apply three_special with y0|]. pose proof (instr_sym_eq _ _ Hy) as Ei. rewrite <- Ei. destruct (is_instr_sym y0) eqn:Ey0.
    + cbn [andb]. apply orb_prop in H2 as [H2|H2].
      * apply andb_prop in H2 as [H2 H3]. destruct segs; [|discriminate]. inversion HS'; subst. cbn [concat] in E.
        apply existsb_exists in H3 as (k2 & Hk2 & E2). apply kind_eqb_eq in E2. subst k2.
        assert (X : existsb (selects (STok KEYWORD)) cs = false).
        { apply no_token; [|reflexivity]. rewrite E. constructor; [|constructor]. eauto. }
        destruct Hk2 as [<-|[<-|[]]]; unfold special; cbn [loose orb]; rewrite X; reflexivity.
      * apply kind_eqb_eq in H2. subst k. reflexivity.
    + cbn [andb]. apply andb_prop in H2 as [H2 H3]. symmetry. apply not_true_iff_false. intros Z.
      pose proof (special_kind _ Z) as (k' & cs' & Ek & Hk'). injection Ek as <- <-.
      assert (HE0 : filter significant cs = concat ([y] :: gs')) by exact E.
      unfold special, loose in Z. destruct Hk' as [<-|[<-|[<-|[]]]]; cbn [orb] in Z.
      * cbn [existsb] in H2. replace (kind_eqb ELEM_EXPR ELEM_EXPR) with true in H2 by reflexivity. cbn [orb negb] in H2.
        rewrite (has_token (fun s => match s with YKw _ => true | _ => false end) KEYWORD cs _ _ HS0 HE0) in Z; [discriminate| |].
        -- intros s g Hs Hsg. destruct s; try discriminate. destruct g; [|contradiction]. destruct Hsg as [-> _]. reflexivity.
        -- exact H2.
      * cbn [existsb] in H2. replace (kind_eqb OFFSET OFFSET) with true in H2 by reflexivity. rewrite orb_true_r in H2. cbn [orb negb] in H2.
        rewrite (has_token (fun s => match s with YKw _ => true | _ => false end) KEYWORD cs _ _ HS0 HE0) in Z; [discriminate| |].
        -- intros s g Hs Hsg. destruct s; try discriminate. destruct g; [|contradiction]. destruct Hsg as [-> _]. reflexivity.
        -- exact H2.
      * replace (kind_eqb BLOCK_IF_THEN BLOCK_IF_THEN) with true in H3 by reflexivity. cbn [orb negb] in H3. rewrite orb_false_r in Z.
        rewrite (has_token (fun s => match s with YTk L_PAREN => true | _ => false end) L_PAREN cs _ _ HS0 HE0) in Z; [discriminate| |].
        -- intros s g Hs Hsg. destruct s as [|s|]; try discriminate. destruct s; try discriminate. destruct g; [|contradiction]. cbn [SymM] in Hsg. subst. reflexivity.
        -- clear -H3. induction (SOne y0 :: segs) as [|s l IH]; [discriminate|]. cbn [existsb] in *. apply orb_prop in H3 as [H3|H3]; [|rewrite IH by exact H3; apply orb_true_r].
           destruct s as [[|s|]|]; try discriminate. destruct s; try discriminate. reflexivity.
  - destruct segs; [|discriminate]. apply andb_prop in Ha as [H1 H2]. apply kind_eqb_eq in H1. subst k.
    inversion HS as [|? g0 ? gs' Hg HS']; subst. inversion HS'; subst. cbn [concat] in HE. rewrite app_nil_r in HE. cbn [SegM] in Hg.
    assert (All : Forall (fun g => exists y, is_instr_sym y = true /\ SymM y g) (filter significant cs)).
    { rewrite HE. eapply Forall_impl; [|exact Hg]. intros g (y & Hy & Hm'). rewrite forallb_forall in H2. eauto. }
    assert (Hl : loose (Node BLOCK_IF_THEN cs) = true) by (unfold loose; now rewrite (no_token L_PAREN _ All eq_refl)).
    split; [auto|]. intros y r E. rewrite E in All. inversion All as [|? ? (z & Hz & Hzm) _]; subst.
    split; [apply three_special with z; auto using instr_not_three|]. rewrite <- (instr_sym_eq _ _ Hzm), Hz. unfold special. rewrite Hl. reflexivity.
Qed.

(** ** Well-formed documents *)

Lemma sub_trans a b c : Sub a b -> Sub b c -> Sub a c.
Proof. induction 1 as [|k cs d g Hd _ IH]; intros H; [exact H|]. apply Sub_child with d; auto. Qed.

Lemma document_tame o tree cs c : Document tree -> tree = Node ROOT cs -> In c cs -> WF o c -> Tame c.
Proof.
  intros Hd E Hc HW k l Hs. destruct (proj1 HW k l Hs) as (W1 & W2 & W3 & W4 & W5). destruct (document_fitted _ _ _ Hd E Hc k l Hs) as [F1 F2].
  destruct (head_facts k l W1 W2) as [H1 H2].
  assert (HWs : WFs o l).
  { apply Forall_forall. intros x Hx. split.
    - intros k' l' Hs'. apply (proj1 HW). eapply sub_trans; [exact Hs|]. now apply Sub_child with x.
    - intros k' t' Hin. apply (proj2 HW). destruct (sub_split _ _ Hs) as (p & q & Eq). rewrite Eq. apply in_or_app. right. apply in_or_app. left.
      rewrite gtokens_node. unfold gtokenss. apply in_concat. exists (gtokens x). split; [now apply in_map|exact Hin]. }
  split; auto.
  - pose proof (WFs_good o _ HWs) as G. apply Forall_forall. intros x Hx. rewrite Forall_forall in G. specialize (G x Hx).
    destruct (significant x) eqn:Es; [now left|right]. split; assumption.
  - intros a v w b El. destruct Hd as (ms & tl & Et & _ & _ & Hsep). apply (meet tree k a v w b Hsep). rewrite <- El, E. now apply Sub_child with c.
Qed.

(** ** Comments that are kept *)

Lemma thin_length a b : Thin a b -> length (filter visible a) <= length (filter visible b).
Proof.
  induction 1 as [|p a b _ IH|k t a b _ _ IH]; cbn [filter]; [lia| |].
  - destruct (visible p); cbn [length]; lia.
  - destruct (visible (k, t)); cbn [length]; lia.
Qed.
Definition Full (g : green) : Prop := length (vis [keep g]) = length (vis [g]).
Lemma keep_le g : length (vis [keep g]) <= length (vis [g]).
Proof. rewrite !vis_one. apply thin_length, keep_thin. Qed.
Lemma keeps_le cs : length (vis (map keep cs)) <= length (vis cs).
Proof.
  induction cs as [|c cs IH]; [reflexivity|]. cbn [map]. rewrite !vis_cons, !app_length. pose proof (keep_le c) as H. rewrite !vis_one in H. lia.
Qed.
Lemma full_node k cs : Full (Node k cs) -> Forall Full cs /\ length (vis (survivors k (map keep cs))) = length (vis (map keep cs)).
Proof.
  unfold Full. cbn [keep]. rewrite !vis_node. intros H.
  pose proof (thin_length _ _ (survivors_thin k (map keep cs))) as H1. fold (vis (survivors k (map keep cs))) (vis (map keep cs)) in H1.
  pose proof (keeps_le cs) as H2. split; [|lia]. assert (H3 : length (vis (map keep cs)) = length (vis cs)) by lia. clear -H3.
  induction cs as [|c cs IH]; [constructor|]. cbn [map] in H3. rewrite !vis_cons, !app_length in H3. pose proof (keep_le c) as H. pose proof (keeps_le cs) as H2.
  rewrite !vis_one in H. constructor; [unfold Full; rewrite !vis_one; lia|apply IH; lia].
Qed.
Lemma full_sub g h : Sub g h -> Full g -> Full h.
Proof.
  induction 1 as [g|k cs c h Hc _ IH]; intros H; [exact H|]. apply full_node in H as [H _]. rewrite Forall_forall in H. auto.
Qed.
Lemma keep_trivial pre : existsb significant pre = false -> map keep pre = pre.
Proof.
  induction pre as [|g pre IH]; [reflexivity|]. cbn [existsb map]. intros H. apply orb_false_elim in H as [H1 H2]. rewrite IH by exact H2.
  destruct g; [reflexivity|discriminate].
Qed.
Lemma skip_app pre r : existsb significant pre = false -> skip_trivia (pre ++ r) = skip_trivia r.
Proof.
  induction pre as [|g pre IH]; [reflexivity|]. cbn [existsb app skip_trivia]. intros H. apply orb_false_elim in H as [H1 H2].
  unfold trivial. rewrite H1. cbn [negb]. auto.
Qed.
Lemma skip_le l : length (vis (skip_trivia l)) <= length (vis l).
Proof. apply thin_length, skip_thin. Qed.
Lemma join_le pre y r : existsb significant pre = false -> SpecFormat.is_node RESULT y = true -> forall a, existsb (SpecFormat.is_node RESULT) a = false ->
  length (vis (join_results (a ++ pre ++ y :: r))) + length (vis pre) <= length (vis (a ++ pre ++ y :: r)).
Proof.
  intros Hp Hy. assert (Ty : trivial y = false) by (destruct y; [discriminate|reflexivity]).
  assert (Sy : skip_trivia (y :: r) = y :: r) by (cbn [skip_trivia]; now rewrite Ty).
  induction a as [|c a IH]; intros Ha; cbn [app].
  - destruct pre as [|g pre].
    + cbn [app join_results]. rewrite Ty, Hy. cbn. lia.
    + cbn [app join_results]. pose proof Hp as Hp0. cbn [existsb] in Hp. apply orb_false_elim in Hp as [H1 H2]. unfold trivial at 1. rewrite H1. cbn [negb].
      rewrite (skip_app pre _ H2), Sy, Hy. change (g :: pre ++ y :: r) with ((g :: pre) ++ y :: r). rewrite vis_app, app_length. lia.
  - cbn [existsb] in Ha. apply orb_false_elim in Ha as [H1 H2]. cbn [join_results]. specialize (IH H2).
    destruct (trivial c) eqn:Tc.
    + assert (C : length (vis (c :: join_results (a ++ pre ++ y :: r))) + length (vis pre) <= length (vis (c :: a ++ pre ++ y :: r))).
      { rewrite !(vis_cons c), !app_length. lia. }
      destruct (skip_trivia (a ++ pre ++ y :: r)) as [|x q] eqn:Eq; [exact C|]. destruct (SpecFormat.is_node RESULT x) eqn:Ex; [|exact C].
      assert (Z : existsb significant a = false).
      { destruct (existsb significant a) eqn:Ea; [|reflexivity]. exfalso.
        destruct (first_sig a) as [[_ E1]|(p & z & s & E & Sz & Hpz & _)]; [congruence|]. rewrite E, <- app_assoc in Eq. cbn [app] in Eq.
        rewrite (skip_app p _ Hpz) in Eq. cbn [skip_trivia] in Eq. unfold trivial in Eq. rewrite Sz in Eq. cbn [negb] in Eq. injection Eq as -> _.
        rewrite E, existsb_app in H2. cbn [existsb] in H2. rewrite Ex, orb_true_r in H2. discriminate. }
      rewrite (skip_app a _ Z), (skip_app pre _ Hp), Sy in Eq. rewrite <- Eq. rewrite (vis_cons c), (vis_app a), (vis_app pre), !app_length. lia.
    + rewrite H1. rewrite !(vis_cons c), !app_length. lia.
Qed.

Lemma no_vis_comment pre : vis pre = [] -> existsb significant pre = false -> existsb a_comment pre = false.
Proof.
  induction pre as [|g pre IH]; [reflexivity|]. intros V H. cbn [existsb] in *. apply orb_false_elim in H as [H1 H2]. rewrite vis_cons in V.
  apply app_eq_nil in V as [V1 V2]. rewrite (IH V2 H2), orb_false_r. destruct g as [k t|]; [|discriminate]. destruct k; try reflexivity; discriminate V1.
Qed.
Lemma keep_sel f cs : (forall g, f (keep g) = f g) -> existsb f (map keep cs) = existsb f cs.
Proof. intros H. induction cs as [|c cs IH]; [reflexivity|]. cbn [map existsb]. now rewrite H, IH. Qed.

Lemma document_kept tree c : Full c -> Tame c -> Sub tree c -> CompactTypeUses tree -> NoCommentsBeforeAbbreviated tree -> Kept c.
Proof.
  intros HF HT Hsub Hct Hab k cs Hs. pose proof (full_sub _ _ Hs HF) as F. apply full_node in F as [_ F]. pose proof (HT k cs Hs) as N.
  assert (Hs0 : Sub tree (Node k cs)) by (eapply sub_trans; eauto).
  split.
  - intros Hl pre r E Hp. assert (k = BLOCK_IF_THEN) as -> by (destruct k; try discriminate Hl; reflexivity).
    cbn [survivors] in F. rewrite E, map_app, (keep_trivial pre Hp), (skip_app pre _ Hp), vis_app, app_length in F.
    pose proof (skip_le (map keep r)) as X. apply no_vis_comment; [|exact Hp]. apply length_zero_iff_nil. lia.
  - intros a x pre y r E Hx Hp Hd. unfold dropped_before in Hd. apply andb_prop in Hd as [Hd H3]. apply andb_prop in Hd as [H1 H2].
    apply kind_eqb_eq in H1. subst k. apply negb_true_iff in H2.
    destruct y as [|ky cy]; [discriminate|]. destruct ky; try discriminate. apply negb_true_iff in H3.
    cbn [survivors] in F. rewrite (keep_sel (is_token L_PAREN)) in F by (intros []; reflexivity).
    change (existsb (is_token L_PAREN) cs) with (token_in L_PAREN cs) in F. rewrite H2 in F.
    assert (E2 : map keep cs = map keep (a ++ [x]) ++ pre ++ keep (Node RESULT cy) :: map keep r).
    { rewrite E, !map_app. cbn [map]. rewrite map_app, (keep_trivial pre Hp), <- app_assoc. reflexivity. }
    rewrite E2 in F.
    assert (Hn : existsb (SpecFormat.is_node RESULT) (map keep (a ++ [x])) = false).
    { rewrite (keep_sel (SpecFormat.is_node RESULT)) by (intros []; reflexivity). apply not_true_iff_false. intros Z. apply existsb_exists in Z as (z & Hz & Hz2).
      rewrite <- not_true_iff_false in H3. apply H3. apply existsb_exists. exists z. split; [|exact Hz2].
      apply -> in_rev. apply filter_In. split; [exact Hz|]. destruct z; [discriminate|reflexivity]. }
    pose proof (join_le pre (keep (Node RESULT cy)) (map keep r) Hp eq_refl _ Hn) as X.
    assert (V : vis pre = []) by (apply length_zero_iff_nil; lia).
    pose proof (no_vis_comment _ V Hp) as Hc.
    assert (HTp : Forall TrivEl pre).
    { pose proof (t_els _ _ N) as Y. apply Forall_forall. intros g Hg. rewrite Forall_forall in Y. destruct (Y g) as [Z|Z]; [|exfalso|exact Z].
      - rewrite E. apply in_or_app. right. right. apply in_or_app. now left.
      - assert (existsb significant pre = true) by (apply existsb_exists; eauto). congruence. }
    assert (Hm : nomeet pre).
    { pose proof (t_meet _ _ N) as Y. rewrite E in Y. replace (a ++ x :: pre ++ Node RESULT cy :: r) with ((a ++ [x]) ++ pre ++ Node RESULT cy :: r) in Y
        by (rewrite <- app_assoc; reflexivity). exact (nomeet_prefix _ _ (nomeet_suffix _ _ Y)). }
    destruct (no_comments true pre HTp Hm Hc) as [->|(w & ->)]; [reflexivity|]. unfold kept_between. cbn [existsb a_comment orb].
    destruct x as [|kx cx]; [reflexivity|]. rewrite orb_false_r. apply Nat.leb_gt.
    exact (Hct cs a kx cx w (Node RESULT cy :: r) Hs0 E).
  - intros a pre y r E Hp Hc. apply existsb_exists in Hc as (g & Hg & Hgc). apply in_split in Hg as (p1 & p2 & ->).
    destruct g as [kg tg|]; [|discriminate].
    assert (Hk : In kg [LINE_COMMENT; BLOCK_COMMENT]) by (destruct kg; try discriminate; cbn; tauto).
    assert (E2 : cs = (a ++ p1) ++ Tok kg tg :: p2 ++ y :: r) by (rewrite E, <- !app_assoc; reflexivity).
    assert (Hp2 : existsb significant p2 = false).
    { rewrite existsb_app in Hp. cbn [existsb] in Hp. apply orb_false_elim in Hp as [_ Hp]. now apply orb_false_elim in Hp as [_ Hp]. }
    pose proof (Hab k cs (a ++ p1) kg tg p2 y r Hs0 Hk E2 Hp2) as Ha.
    assert (Hlo : loose y = false).
    { destruct (p2) as [|q p2'] using rev_ind.
      - apply (t_fit _ _ N (a ++ p1) (Tok kg tg) y r E2). destruct Hk as [<-|[<-|[]]]; reflexivity.
      - apply (t_fit _ _ N (a ++ p1 ++ Tok kg tg :: p2') q y r).
        + rewrite E2, <- !app_assoc. reflexivity.
        + rewrite existsb_app in Hp2. apply orb_false_elim in Hp2 as [_ Hp2]. cbn in Hp2. now rewrite orb_false_r in Hp2. }
    unfold special. rewrite Hlo. cbn [orb]. destruct y as [|ky cy]; [reflexivity|]. destruct ky; try reflexivity; cbn [abbreviated] in Ha; rewrite token_in_sel in Ha; exact Ha.
Qed.

(** ** The modules *)

Section Root.
  Variables (step : nat) (sp : bool).
  Notation prs := (map (pr sp)).
  Notation mods := (lay_modules step sp false).

  Definition RootIt (Q : green -> Prop) (c : green) : Prop := TrivEl c \/ exists l, c = Node MODULE l /\ Tame c /\ Q c.
  Definition blank_start (l : list green) : bool := match l with g :: _ => wsl g | [] => false end.

  Lemma mods_ws g x r : wsl g = true -> mods (g :: x :: r) = trivia_pieces sp 0 g ++ mods (x :: r).
  Proof. destruct g as [[]|]; try discriminate. reflexivity. Qed.
  Lemma item_start Q c : RootIt Q c -> wsl c = false ->
    (forall r, exists t q, mods (c :: r) = Word t :: q) /\ exists p q, gtokens c = p :: q /\ visible p = true /\ solid p = significant c.
  Proof.
    intros [Ht|(l & -> & HT & _)] Hw.
    - destruct (triv_cases _ Ht) as [(w & ->)|(k & t & -> & Hk & _)]; [discriminate|]. destruct (comment_facts sp k t Hk) as (V & _ & X & _). split.
      + intros r. exists (snd (pr sp (k, t))), (mods r). destruct Hk as [<-|[<-|[]]]; reflexivity.
      + exists (k, t), []. split; [reflexivity|]. split; [exact V|]. destruct Hk as [<-|[<-|[]]]; reflexivity.
    - split.
      + intros r. destruct (lay_start step sp (Node MODULE l) HT eq_refl 0) as [(_ & t & q & E)|(Z & _)]; [|discriminate Z].
        exists t, (q ++ mods r). cbn [lay_modules]. rewrite E. reflexivity.
      + destruct (tokens_start (Node MODULE l) HT eq_refl eq_refl) as (p & q & E & Hp). exists p, q. split; [exact E|].
        split; [now apply solid_visible1|exact Hp].
  Qed.
  (** Gaps in front of a word. *)
  Lemma shift t q p ts c d : visible p = true -> pgaps c (Word t :: q) = tgo d (p :: ts) ->
    c = d /\ forall e, pgaps e (Word t :: q) = tgo e (p :: ts).
  Proof.
    intros Hv. destruct p as [k u]. rewrite fst_pgaps_word, (fst_tgo_word _ _ _ _ Hv). intros E. injection E as -> E1 E2. split; [reflexivity|].
    intros e. rewrite fst_pgaps_word, (fst_tgo_word _ _ _ _ Hv), E1, E2. reflexivity.
  Qed.
  Lemma only_white Q l : Forall (RootIt Q) l -> nomeet l -> vis l = [] -> l = [] \/ exists w, l = [Tok WHITESPACE w].
  Proof.
    intros HR Hm Hv. destruct l as [|a l]; [now left|right]. inversion HR as [|? ? Ha HR2]; subst.
    assert (X : forall c r, RootIt Q c -> wsl c = false -> vis (c :: r) <> []).
    { intros c r Hc Hw E. destruct (proj2 (item_start Q c Hc Hw)) as (p & q & Et & V & _). rewrite vis_cons, Et in E. cbn [filter] in E. rewrite V in E. discriminate E. }
    destruct (wsl a) eqn:Ea; [|destruct (X a l Ha Ea Hv)]. destruct a as [[] w|]; try discriminate Ea. exists w. f_equal.
    destruct l as [|b l]; [reflexivity|]. exfalso. inversion HR2; subst. destruct (wsl b) eqn:Eb.
    - destruct b as [[] v|]; try discriminate Eb. exact (Hm [] w v l eq_refl).
    - apply (X b l); auto.
  Qed.
  Lemma nomeet_tl a l : nomeet (a :: l) -> nomeet l.
  Proof. intros H. exact (nomeet_suffix [a] l H). Qed.
  Lemma ws_next a b l : nomeet (a :: b :: l) -> wsl a = true -> wsl b = false.
  Proof.
    intros H Ha. destruct (wsl b) eqn:Eb; [|reflexivity]. destruct a as [[] v|]; try discriminate Ha. destruct b as [[] w|]; try discriminate Eb.
    destruct (H [] v w l eq_refl).
  Qed.

  Lemma root_again : forall n l l' P', length l <= n -> Forall (RootIt Kept) l -> Forall (RootIt (fun _ => True)) l' -> nomeet l -> nomeet l' ->
    map bare (filter significant l) = map bare (filter significant l') -> vis l' = prs (vis l) ->
    Forall2 Chosen (mods l) P' -> pgaps None P' = tgo None (gtokenss l') -> Partly (mods l) (mods l') P'.
  Proof.
    induction n as [|n IH]; intros l l' P' Hn HR HR' Hm Hm' Eb Ev HC Eg.
    { destruct l; [|cbn in Hn; lia]. cbn [vis gtokenss map concat filter] in Ev. destruct (only_white _ _ HR' Hm' Ev) as [->|(w & ->)]; now apply partly_refl. }
    destruct l as [|a r].
    { destruct (only_white _ _ HR' Hm' Ev) as [->|(w & ->)]; now apply partly_refl. }
    inversion HR as [|? ? Ha HRr]; subst. cbn [length] in Hn.
    destruct (wsl a) eqn:Ea.
    - (* white space *)
      destruct a as [[] v|]; try discriminate Ea. destruct r as [|x r].
      { destruct (only_white _ _ HR' Hm' Ev) as [->|(w & ->)]; now apply partly_refl. }
      pose proof (ws_next _ _ _ Hm eq_refl) as Hx. inversion HRr as [|? ? Hxi _]; subst.
      rewrite (mods_ws (Tok WHITESPACE v)) in * by reflexivity.
      apply Forall2_app_inv_l in HC as (Pa & P2 & HCa & HC2 & ->).
      assert (Pa = trivia_pieces sp 0 (Tok WHITESPACE v)) as ->.
      { apply chosen_id; [|exact HCa]. intros m. cbn [trivia_pieces]. destruct (lines v) as [|[|]]; cbn; intuition discriminate. }
      rewrite ws_gaps in Eg. destruct (item_start _ _ Hxi Hx) as [Hmx (p & q & Et & Vp & _)]. destruct (Hmx r) as (t & q2 & Emx).
      pose proof HC2 as HC3. rewrite Emx in HC3. inversion HC3 as [|? u ? P3 Hu _]; subst. cbn [Chosen] in Hu. subst u.
      assert (Hne : vis l' <> []).
      { rewrite Ev, vis_cons, vis_cons, Et. cbn [gtokens filter app]. rewrite Vp. discriminate. }
      destruct l' as [|a' r']; [now destruct Hne|]. inversion HR' as [|? ? Ha' HRr']; subst.
      destruct (wsl a') eqn:Ea'.
      + destruct a' as [[] w|]; try discriminate Ea'. destruct r' as [|x' r']; [now destruct Hne|].
        pose proof (ws_next _ _ _ Hm' eq_refl) as Hx'. inversion HRr' as [|? ? Hxi' _]; subst.
        destruct (item_start _ _ Hxi' Hx') as [_ (p' & q' & Et' & Vp' & _)].
        change (tgo None (gtokenss (Tok WHITESPACE w :: x' :: r'))) with (tgo (Some (lines w)) (gtokenss (x' :: r'))) in Eg.
        rewrite gtokenss_cons, Et' in Eg. cbn [app] in Eg. destruct (shift _ _ _ _ _ _ Vp' Eg) as [El Es]. cbn [gmore] in El. injection El as El.
        rewrite (mods_ws (Tok WHITESPACE w)) by reflexivity. rewrite (ws_pieces sp 0 w v) by (rewrite <- El; destruct (lines v) as [|[|]]; reflexivity). apply partly_app; [now apply partly_refl|].
        apply IH; auto; [lia|exact (nomeet_tl _ _ Hm)|exact (nomeet_tl _ _ Hm')|]. rewrite gtokenss_cons, Et'. apply Es.
      + destruct (item_start _ _ Ha' Ea') as [_ (p' & q' & Et' & Vp' & _)]. rewrite gtokenss_cons, Et' in Eg. cbn [app] in Eg.
        destruct (shift _ _ _ _ _ _ Vp' Eg) as [El _]. discriminate El.
    - (* a comment or a module *)
      destruct (item_start _ _ Ha Ea) as [Hma (p & q & Et & Vp & Sp)]. destruct (Hma r) as (t & q2 & Ema).
      pose proof HC as HC3. rewrite Ema in HC3. inversion HC3 as [|? u ? P3 Hu _ E1 E2]. subst. cbn [Chosen] in Hu. subst u.
      assert (Ev1 : vis (a :: r) = p :: filter visible q ++ vis r) by (rewrite vis_cons, Et; cbn [filter]; now rewrite Vp).
      destruct l' as [|a' r']; [rewrite Ev1 in Ev; discriminate Ev|]. inversion HR' as [|? ? Ha' HRr']; subst.
      destruct (wsl a') eqn:Ea'.
      { exfalso. destruct a' as [[] w|]; try discriminate Ea'. destruct r' as [|x' r']; [rewrite Ev1 in Ev; discriminate Ev|].
        pose proof (ws_next _ _ _ Hm' eq_refl) as Hx'. inversion HRr' as [|? ? Hxi' _]; subst.
        destruct (item_start _ _ Hxi' Hx') as [_ (p' & q' & Et' & Vp' & _)].
        change (tgo None (gtokenss (Tok WHITESPACE w :: x' :: r'))) with (tgo (Some (lines w)) (gtokenss (x' :: r'))) in Eg.
        rewrite gtokenss_cons, Et' in Eg. cbn [app] in Eg. destruct (shift _ _ _ _ _ _ Vp' Eg) as [El _]. discriminate El. }
      destruct (item_start _ _ Ha' Ea') as [_ (p' & q' & Et' & Vp' & Sp')].
      assert (Ev2 : vis (a' :: r') = p' :: filter visible q' ++ vis r') by (rewrite vis_cons, Et'; cbn [filter]; now rewrite Vp').
      assert (Es : significant a = significant a').
      { rewrite <- Sp, <- Sp'. rewrite Ev1, Ev2 in Ev. cbn [map] in Ev. injection Ev as -> _. now rewrite pr_solid. }
      destruct Ha as [Ta|(la & -> & HTa & HKa)].
      + destruct (triv_cases _ Ta) as [(w & ->)|(k & u & -> & Hk & HL)]; [discriminate Ea|].
        destruct Ha' as [Ta'|(la' & -> & _)]; [|destruct Hk as [<-|[<-|[]]]; discriminate Es].
        destruct (triv_cases _ Ta') as [(w & ->)|(k' & u' & -> & Hk' & _)]; [discriminate Ea'|].
        cbn [gtokens] in Et, Et'. injection Et as <- <-. injection Et' as <- <-. rewrite Ev1, Ev2 in Ev. cbn [filter app map] in Ev. injection Ev as E1 E2.
        assert (X : forall k u r, In k [LINE_COMMENT; BLOCK_COMMENT] -> mods (Tok k u :: r) = Word (snd (pr sp (k, u))) :: mods r).
        { intros k0 u0 r0 [<-|[<-|[]]]; reflexivity. }
        rewrite (X k u r Hk) in *. rewrite (X k' u' r' Hk').
        assert (Ep : snd (pr sp (k', u')) = snd (pr sp (k, u))).
        { pose proof (comment_facts sp k u Hk) as (_ & _ & _ & F). rewrite <- E1 in F. cbn [fst] in F. subst k'.
          destruct (pr_twice sp k u HL) as [Z|Z]; [|contradiction]. rewrite <- E1 in Z |- *. cbn [snd] in Z |- *.
          destruct Hk as [<-|[<-|[]]]; exact Z. }
        assert (Etw : t = snd (pr sp (k, u))) by congruence. rewrite Ep. inversion HC as [|? ? ? P4 _ HC4]; subst. constructor; [discriminate|].
        apply IH; auto; [lia|exact (nomeet_tl _ _ Hm)|exact (nomeet_tl _ _ Hm')| |].
        * destruct Hk as [<-|[<-|[]]]; destruct Hk' as [<-|[<-|[]]]; exact Eb.
        * rewrite gtokenss_cons in Eg. cbn [gtokens app] in Eg. rewrite fst_pgaps_word, (fst_tgo_word _ _ _ _ Vp') in Eg. injection Eg as G1 G2.
          rewrite (surjective_pairing (pgaps None P3)), (surjective_pairing (tgo None (gtokenss r'))). congruence.
      + destruct Ha' as [[Ta' _]|(la' & -> & HTa' & _)]; [rewrite Ta' in Es; discriminate Es|].
        cbn [filter significant map] in Eb. injection Eb as Ebl Ebr.
        set (y := Node MODULE la) in *. set (y' := Node MODULE la') in *.
        assert (Eby : bare y = bare y') by (unfold y, y'; cbn [bare]; f_equal; exact Ebl).
        assert (Hney : ~ empty y) by (intros (k0 & _ & Z); discriminate Z).
        destruct (child_facts step sp y y' HTa HTa' eq_refl eq_refl Eby Hney) as (D1 & D2 & D3 & D4 & D5).
        assert (V1 : vis (y :: r) = vis [y] ++ vis r) by now rewrite vis_cons, vis_one.
        assert (V2 : vis (y' :: r') = vis [y'] ++ vis r') by now rewrite vis_cons, vis_one.
        rewrite V1, V2 in Ev. destruct (split_end sp _ _ _ _ Ev D1 D2 D3) as [W1 W2].
        change (mods (y :: r)) with (lay step sp 0 y ++ mods r) in *. change (mods (y' :: r')) with (lay step sp 0 y' ++ mods r').
        apply Forall2_app_inv_l in HC as (Py & P2 & HCy & HC2 & E9). rewrite E9 in *. clear E9.
        rewrite gtokenss_cons, pgaps_split, tgo_split, D5 in Eg.
        rewrite (ended_gap Py None (ended_chosen _ _ HCy (D4 0))) in Eg. injection Eg as G1 G2.
        assert (L : length (fst (pgaps None Py)) = length (fst (tgo None (gtokens y')))).
        { rewrite pgaps_length, tgo_count, (words_chosen _ _ HCy), (lay_count step sp y HTa HKa eq_refl 0), <- vis_one, W1, map_length. reflexivity. }
        apply (app_inj _ _ _ _ L) in G1 as [G1 G3].
        apply partly_app.
        * apply all_again; auto. now rewrite G1.
        * apply IH; auto; [lia|exact (nomeet_tl _ _ Hm)|exact (nomeet_tl _ _ Hm')|].
          rewrite (surjective_pairing (pgaps None P2)), (surjective_pairing (tgo None (gtokenss r'))). congruence.
  Qed.

  Lemma mods_true l : lay_modules step sp true l = match l with g :: r => if wsl g then mods r else mods l | [] => mods [] end.
  Proof. destruct l as [|[[]|] r]; reflexivity. Qed.
  Lemma root_first l l' P' : Forall (RootIt Kept) l -> Forall (RootIt (fun _ => True)) l' -> nomeet l -> nomeet l' ->
    map bare (filter significant l) = map bare (filter significant l') -> vis l' = prs (vis l) ->
    Forall2 Chosen (lay_modules step sp true l) P' -> pgaps None P' = tgo None (gtokenss l') ->
    Partly (lay_modules step sp true l) (lay_modules step sp true l') P'.
  Proof.
    intros HR HR' Hm Hm' Eb Ev HC Eg.
    assert (M : exists m, lay_modules step sp true l = mods m /\ blank_start m = false /\ Forall (RootIt Kept) m /\ nomeet m
      /\ filter significant l = filter significant m /\ vis l = vis m).
    { rewrite mods_true. destruct l as [|g r]; [exists []; repeat split; auto|]. destruct (wsl g) eqn:Ew.
      - exists r. inversion HR; subst. split; [reflexivity|]. split; [|split; [assumption|split; [exact (nomeet_tl _ _ Hm)|]]].
        + destruct r as [|x r]; [reflexivity|]. exact (ws_next _ _ _ Hm Ew).
        + destruct g as [[]|]; try discriminate Ew. split; reflexivity.
      - exists (g :: r). repeat split; auto. }
    destruct M as (m & El & Hb & HRm & Hmm & Ef & Evm). rewrite El in *. rewrite Ef in Eb. rewrite Evm in Ev. clear l El Ef Evm HR Hm.
    pose proof (root_again (length m) m l' P' (Nat.le_refl _) HRm HR' Hmm Hm' Eb Ev HC Eg) as X. rewrite mods_true.
    destruct l' as [|g r']; [exact X|]. destruct (wsl g) eqn:Ew; [|exact X].
    destruct g as [[] w|]; try discriminate Ew. destruct r' as [|x r']; [exact X|]. exfalso.
    destruct m as [|a m].
    - destruct (only_white _ _ HR' Hm' Ev) as [Z|(w' & Z)]; discriminate Z.
    - inversion HRm as [|? ? Ha _]; subst. destruct (proj1 (item_start _ _ Ha Hb) m) as (t & q & Em). rewrite Em in HC.
      inversion HC as [|? u ? P3 Hu _]; subst. cbn [Chosen] in Hu. subst u.
      pose proof (ws_next _ _ _ Hm' eq_refl) as Hx. inversion HR' as [|? ? _ HR2]; subst. inversion HR2 as [|? ? Hxi _]; subst.
      destruct (item_start _ _ Hxi Hx) as [_ (p' & q' & Et' & Vp' & _)].
      change (tgo None (gtokenss (Tok WHITESPACE w :: x :: r'))) with (tgo (Some (lines w)) (gtokenss (x :: r'))) in Eg.
      rewrite gtokenss_cons, Et' in Eg. cbn [app] in Eg. destruct (shift _ _ _ _ _ _ Vp' Eg) as [E _]. discriminate E.
  Qed.
End Root.

(** ** The theorem *)

Lemma leaves_pr o g : (forall k t, In (k, t) (gtokens g) -> LexForm k t) ->
  combine (map fst (SpecFormat.shown g)) (leaves o g) = map (pr (fix_comments o)) (SpecFormat.shown g).
Proof.
  unfold SpecFormat.shown, leaves. induction (gtokens g) as [|[k t] l IH]; intros H; [reflexivity|].
  specialize (IH (fun k t Hin => H k t (or_intror Hin))). specialize (H k t (or_introl eq_refl)).
  destruct k; cbn [filter fst flat_map leaf_texts kind_eqb]; try exact IH;
    try (change (kind_eqb WHITESPACE WHITESPACE) with true; exact IH);
    match goal with |- context [negb (kind_eqb ?a ?b)] => change (negb (kind_eqb a b)) with true end;
    cbn [map fst snd app combine]; rewrite IH; try reflexivity.
  - f_equal. unfold pr. cbn [fst snd]. f_equal. now apply line_spec.
  - f_equal. unfold pr. cbn [fst snd]. f_equal. now apply block_spec.
Qed.
Lemma settings_nl s : new_line_of s = [c_lf] \/ new_line_of s = [c_cr; c_lf].
Proof. unfold new_line_of. destruct (f_crlf s); auto. Qed.

Lemma settings_ind s n : blankt (indentation_of s n) /\ count_lf (indentation_of s n) = 0.
Proof.
  unfold indentation_of. destruct (f_tabs s); unfold tabs_blanks, blanks.
  - split; [apply Forall_app; split; now apply blankt_repeat|]. now rewrite count_app, !count_repeat.
  - split; [now apply blankt_repeat|now apply count_repeat].
Qed.

Lemma root_items (Q : green -> Prop) o cs : Document (Node ROOT cs) -> Ordinary (Node ROOT cs) -> NoDirective (directive o) (Node ROOT cs) ->
  (forall c, In c cs -> Tame c -> Q c) -> Forall (RootIt Q) cs /\ nomeet cs.
Proof.
  intros Hd Ho Hn HQ. pose proof (ThmComplete.C48_complete true _ Hd) as HP. pose proof (document_fine _ _ Hd Ho Hn) as HF.
  assert (HW : forall c, In c cs -> WF o c) by (intros c Hc; eapply parse_WF; eauto).
  assert (HG : Forall GoodEl cs) by (apply (WFs_good o); apply Forall_forall; exact HW).
  assert (HE : Forall RootEl cs) by (apply root_elements; apply HF).
  split.
  - apply Forall_forall. intros c Hc. rewrite Forall_forall in HG, HE. specialize (HG c Hc). specialize (HE c Hc). destruct c as [k t|k l].
    + left. split; [|exact HG]. cbn [RootEl] in HE. cbn [significant]. now rewrite HE.
    + cbn [RootEl] in HE. subst k. right. exists l. split; [reflexivity|].
      assert (HT : Tame (Node MODULE l)) by (eapply document_tame; eauto). auto.
  - intros a v w b E. destruct Hd as (ms & tl & _ & _ & _ & Hs). apply (meet _ ROOT a v w b Hs). rewrite <- E. constructor.
Qed.

Theorem C50_idempotent_comments dbg tree s width :
  Document tree -> Ordinary tree -> NoDirective (directive (f_options s)) tree -> Worded (directive (f_options s)) -> Measures s width ->
  NoLostComments tree -> CompactTypeUses tree -> NoCommentsBeforeAbbreviated tree ->
  exists tree', parse dbg (format s tree) = Parsed tree' [] /\ format s tree' = format s tree.
Proof.
  intros Hd Ho Hn Hw Hm Hl Hct Hab. set (o := f_options s) in *. pose proof (ThmComplete.C48_complete true tree Hd) as HP.
  pose proof (document_fine _ _ Hd Ho Hn) as HF. pose proof (document_form _ Hd) as Ht.
  destruct (parse_root _ _ _ _ HP) as (cs & ->). set (tree := Node ROOT cs) in *.
  destruct (document_ok o cs) as (A & B).
  - apply Forall_forall. intros c Hc. eapply parse_WF; eauto.
  - apply root_elements; apply HF.
  - exact (parse_trivia_root _ _ _ _ HP (proj1 HF) eq_refl).
  - fold tree in A, B.
    assert (Hk : forall k t, In (k, t) (gtokens (keep tree)) -> SpecComplete.TokenForm k t).
    { intros k t Hin. apply Ht. eapply Thin_in; [apply keep_thin|exact Hin]. }
    assert (HL : Forall2 (Printed (fix_comments o)) (SpecFormat.shown (keep tree)) (leaves o (keep tree))).
    { apply leaves_shown. intros k t Hin. now apply Hk. }
    pose proof (document_lay o true _ cs HP HF) as Elay. fold tree in Elay.
    set (T1 := lay_document (indent_width o) (fix_comments o) tree) in *.
    assert (Etext : format s tree = text_of width (new_line_of s) (indentation_of s) 0 T1).
    { destruct HF as (F1 & F2 & F3 & F4). exact (C58_layout true _ tree s width HP F1 F2 F3 F4 Hm). }
    set (P' := choose width 0 T1).
    assert (HC : Forall2 Chosen T1 P') by apply choose_chosen.
    assert (HR : FR (map fp P') (format s tree)).
    { rewrite Etext. apply text_fr; [apply settings_nl|]. apply settings_ind. }
    assert (A' : okp (map coarse (map fp P'))).
    { apply (okp_chosen _ _ HC). rewrite <- Elay, flat_pcs. exact A. }
    assert (B' : texts (map coarse (map fp P')) = leaves o (keep tree)).
    { rewrite texts_words, (words_chosen _ _ HC), <- texts_words, <- Elay, flat_pcs. exact B. }
    destruct (relex2 _ _ A' HR (map fst (SpecFormat.shown (keep tree)))) as (ts & E1 & E2 & E3 & E4).
    + rewrite B'. eapply printed_forms; [|exact HL]. intros k t Hin. apply Hk. unfold SpecFormat.shown in Hin. now apply filter_In in Hin.
    + intros Hin. apply in_map_iff in Hin as ([k t] & E & Hin). cbn [fst] in E. subst k. apply filter_In in Hin as [_ Hin]. discriminate.
    + rewrite B' in E2. pose proof (printed_as _ _ _ HL) as HA. rewrite <- E2 in HA.
      rewrite leaves_pr in E2 by (intros k t Hin; now apply Hk). rewrite Hl in E2.
      destruct (respace_document tree ts Hd) as (tree' & D & G & Hb).
      * unfold ntok. rewrite <- solid_visible, (printed_solid _ _ _ HA). unfold SpecFormat.shown. rewrite solid_visible.
        apply Thin_filter; [|apply keep_thin]. intros k t Hk'. unfold solid. cbn [fst]. now rewrite Hk'.
      * exact E3.
      * assert (X : gtext tree' = format s tree) by (rewrite <- E1, <- G; apply gtext_tokens).
        exists tree'. split; [rewrite <- X; now apply ThmComplete.C48_complete|].
        assert (HP' : parse true (format s tree) = Parsed tree' []) by (rewrite <- X; now apply ThmComplete.C48_complete).
        destruct (C49_again tree s tree' Hd Ho Hn Hw HP') as (_ & Ho' & Hn'). fold o in Hn'.
        pose proof (document_fine _ _ D Ho' Hn') as (F1 & F2 & F3 & F4).
        rewrite (C58_layout true _ tree' s width HP' F1 F2 F3 F4 Hm), Etext. fold o.
        destruct tree' as [|k' cs']; [discriminate Hb|]. destruct (bare_children _ _ _ _ Hb) as [-> Em].
        apply partly_text with (P' := P'); [|reflexivity]. unfold T1. cbn [lay_document tree].
        assert (HFull : Forall Full cs).
        { apply (full_node ROOT). unfold Full. rewrite !vis_one. exact (f_equal (@length _) Hl). }
        destruct (root_items Kept o cs Hd Ho Hn) as [R1 R2].
        { intros c Hc HT. apply (document_kept tree); auto; [rewrite Forall_forall in HFull; auto|]. apply Sub_child with c; [exact Hc|constructor]. }
        destruct (root_items (fun _ => True) o cs' D Ho' Hn' (fun _ _ _ => I)) as [R1' R2'].
        apply root_first; auto.
        -- change (gtokens (Node ROOT cs')) with (gtokenss cs') in G. unfold vis. rewrite G. exact E2.
        -- change (gtokens (Node ROOT cs')) with (gtokenss cs') in G. rewrite G. apply fits_pgaps; [exact (chosen_hard _ _ HC)|]. now apply E4.
Qed.
Print Assumptions C50_idempotent_comments.

Lemma request_worded : Worded (Text.T "fmt-ignore").
Proof. exists 102%N, (Text.T "mt-ignore"). split; [reflexivity|]. intros [[[H1 H2]|[H1 H2]]|H]; [lia|lia|]. cbn in H. intuition discriminate. Qed.
(** The request: what the editor gets for the formatted document is the
    formatted document. *)
Theorem C50_formatting src tree tab spaces :
  parse false src = Parsed tree [] -> Document tree -> Ordinary tree -> NoDirective (Text.T "fmt-ignore") tree ->
  NoLostComments tree -> CompactTypeUses tree -> NoCommentsBeforeAbbreviated tree ->
  let s := request_settings tab spaces in
  exists r out, formatting s (new_line_index src) tree = Ans [(r, out)]
    /\ exists tree' r', parse false out = Parsed tree' [] /\ formatting s (new_line_index out) tree' = Ans [(r', out)]
       /\ line_col (new_line_index out) 0 = Some (fst r') /\ line_col (new_line_index out) (tlen out) = Some (snd r').
Proof.
  intros HP Hd Ho Hn Hl Hct Hab s. destruct (C32_formatting src tree s HP) as (r & E & _). exists r, (format s tree). split; [exact E|].
  destruct (C50_idempotent_comments false tree s 80) as (tree' & HP' & Ef); auto.
  - exact request_worded.
  - split; reflexivity.
  - destruct (C32_formatting _ tree' s HP') as (r' & E' & X1 & X2). exists tree', r'. rewrite Ef in E'. auto.
Qed.
Print Assumptions C50_formatting.

(** ** A document that meets the conditions *)

Fixpoint guarded (seen : bool) (cs : list green) : bool :=
  match cs with
  | [] => true
  | c :: r => if a_comment c then guarded true r
              else if significant c then negb (seen && abbreviated c) && guarded false r else guarded seen r
  end.
Fixpoint guardedb (g : green) : bool := match g with Tok _ _ => true | Node _ cs => guarded false cs && forallb guardedb cs end.
Lemma guarded_after ts : forall y b, existsb significant ts = false -> guarded true (ts ++ y :: b) = true -> abbreviated y = false.
Proof.
  induction ts as [|c ts IH]; intros y b Ht H; cbn [app guarded] in H.
  - destruct y as [|k cs]; [reflexivity|]. cbn [a_comment significant andb] in H. apply andb_prop in H as [H _]. now apply negb_true_iff in H.
  - cbn [existsb] in Ht. apply orb_false_elim in Ht as [Hc Ht]. rewrite Hc in H. destruct (a_comment c); eapply IH; eauto.
Qed.
Lemma guarded_at a : forall seen c t ts y b, In c [LINE_COMMENT; BLOCK_COMMENT] -> existsb significant ts = false ->
  guarded seen (a ++ Tok c t :: ts ++ y :: b) = true -> abbreviated y = false.
Proof.
  induction a as [|x a IH]; intros seen c t ts y b Hc Ht H; cbn [app guarded] in H.
  - replace (a_comment (Tok c t)) with true in H by (destruct Hc as [<-|[<-|[]]]; reflexivity). eapply guarded_after; eauto.
  - destruct (a_comment x); [eapply IH; eauto|]. destruct (significant x); [|eapply IH; eauto]. apply andb_prop in H as [_ H]. eapply IH; eauto.
Qed.
Lemma guardedb_ok tree : guardedb tree = true -> NoCommentsBeforeAbbreviated tree.
Proof.
  intros H k cs a c t ts y b Hs Hc E Ht. remember (Node k cs) as h eqn:Eh. revert H.
  induction Hs as [g|k0 cs0 d h Hd Hs IH]; intros H; subst; cbn [guardedb] in H; apply andb_prop in H as [H1 H2].
  - eapply guarded_at; eauto.
  - rewrite forallb_forall in H2. auto.
Qed.

Definition commented_src : text := unlines
  [ "  ;; header"; ""; ""; "(module $m(; a ;)  ;;b"; "  (import ""env"" ""f"" (func $f (param i32 (;c;) i32) (result i64)(;d;)))";
    " (memory 1 2) (global $g (mut i32)(i32.const 31));;next"; " (func $h (;e;)(export ""h"")(type 0) (;f;) (param $p f64)(param i32)";
    "  (result f32) ;;g"; "   (local i32) (; b ;) block $l (;h;)"; ""; "  loop"; "  local.get 0  ;;i"; "br_if (;j;) $l";
    "  (if (result i32) (;k;) (i32.eqz (local.get $p)(;l;)) (then (;m;) (i32.const 1)) ;;n"; "(else (nop)))";
    "  (i32.add (i32.const 1111111111) (;o;) (i32.add (i32.const 1111111111)(i32.const 1111111111)(;p;)(i32.const 1111111111)))"; " end end $l)";
    "  (data(;q;)$d (i32.const 0) ""abc"" (;r;) ""d"" ;;s"; ") (data (;t;) (offset (;u;) i32.const 0))"; ")(;v;)(module)"; ""; ""; ";; end" ]%string.
Example C50_commented_example :
  exists tree, parse false commented_src = Parsed tree [] /\ Document tree /\ Ordinary tree /\ NoDirective (Text.T "fmt-ignore") tree
    /\ NoLostComments tree /\ CompactTypeUses tree /\ NoCommentsBeforeAbbreviated tree /\ Measures (request_settings 2 true) 80
    /\ length (filter (fun p => is_trivia_kind (fst p)) (SpecFormat.shown tree)) = 26
    /\ format (request_settings 2 true) tree <> commented_src.
Proof.
  assert (H : match parse false commented_src with
              | Parsed tree [] =>
                  ThmComplete.documentb tree && fineb tree && shown_eqb (SpecFormat.shown (keep tree)) (SpecFormat.shown tree)
                  && compactb tree && guardedb tree
                  && Nat.eqb (length (filter (fun p => is_trivia_kind (fst p)) (SpecFormat.shown tree))) 26
                  && negb (text_eqb (format (request_settings 2 true) tree) commented_src)
              | _ => false
              end = true) by (vm_compute; reflexivity).
  destruct (parse false commented_src) as [tree [|]| |]; try discriminate.
  repeat (apply andb_prop in H as [H ?]). exists tree. split; [reflexivity|]. split; [now apply ThmComplete.documentb_ok|].
  match goal with X : fineb tree = true |- _ => apply fineb_ok in X as (_ & Ho & _ & Hn) end.
  split; [exact Ho|]. split; [exact Hn|]. split; [now apply shown_eqb_eq|]. split; [now apply compactb_ok|]. split; [now apply guardedb_ok|].
  split; [split; reflexivity|]. split; [now apply Nat.eqb_eq|].
  intros X. match goal with Y : negb _ = true |- _ => apply negb_true_iff in Y; rewrite (proj2 (text_eqb_eq _ _) X) in Y; discriminate Y end.
Qed.

(** Without the condition on abbreviated offsets the claim is false: the
    offset starts a new line, and the next time the line break is kept and
    another one added. *)
Definition abbreviated_src : text := unlines ["(module (memory 1) (data (;c;)(i32.const 0) ""x""))"]%string.
Theorem C50_abbreviated_refuted :
  exists tree tree', parse true abbreviated_src = Parsed tree [] /\ Document tree /\ Ordinary tree /\ NoDirective (Text.T "fmt-ignore") tree
    /\ NoLostComments tree /\ CompactTypeUses tree
    /\ let s := request_settings 2 true in
       parse true (format s tree) = Parsed tree' [] /\ format s tree' <> format s tree.
Proof.
  assert (H : match parse true abbreviated_src with
              | Parsed tree [] =>
                  ThmComplete.documentb tree && fineb tree && shown_eqb (SpecFormat.shown (keep tree)) (SpecFormat.shown tree) && compactb tree
                  && match parse true (format (request_settings 2 true) tree) with
                     | Parsed tree' [] => negb (text_eqb (format (request_settings 2 true) tree')
                                                         (format (request_settings 2 true) tree))
                     | _ => false
                     end
              | _ => false
              end = true) by (vm_compute; reflexivity).
  destruct (parse true abbreviated_src) as [tree [|]| |]; try discriminate.
  destruct (parse true (format (request_settings 2 true) tree)) as [tree' [|]| |] eqn:E; try (rewrite andb_false_r in H; discriminate H).
  repeat (apply andb_prop in H as [H ?]). exists tree, tree'. split; [reflexivity|]. split; [now apply ThmComplete.documentb_ok|].
  match goal with X : fineb tree = true |- _ => apply fineb_ok in X as (_ & Ho & _ & Hn) end.
  split; [exact Ho|]. split; [exact Hn|]. split; [now apply shown_eqb_eq|]. split; [now apply compactb_ok|]. split; [exact E|].
  intros X. match goal with Y : negb _ = true |- _ => apply negb_true_iff in Y; rewrite (proj2 (text_eqb_eq _ _) X) in Y; discriminate Y end.
Qed.
Print Assumptions C50_abbreviated_refuted.
