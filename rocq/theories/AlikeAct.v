(** Code actions of documents that are alike (C54, C55). *)

From Coq Require Import String List NArith Bool Arith Lia.
From Verif Require Import Text Kind Green SpecParser SpecSyntax Lexer LexerFacts Winnow Grammar Sem Lossless Total
  Bounds Lang TokForm Shape ThmParser ThmSyntax Red Unique LineIndex ThmTree Cursor ThmPos Doc Ast Binder Preorder SpecBinder BinderFacts
  BinderDefs Blocks Nav NavSpec NavFacts ThmNav RefFacts Types Check CheckFacts SpecAction Action ThmAction SpecAlike SpecAlikeAct Alike AlikeNav AlikeCheck AlikeDoc AlikeMore ThmStructure.
From Verif Require SpecComplete ThmComplete HoverFacts.
Import ListNotations.
Local Open Scope list_scope.

(** ** Parameter groups of a document *)

Definition Framed (g : green) : Prop := exists a b m, gchildren g = Tok L_PAREN a :: m ++ [Tok R_PAREN b].

Lemma document_headed_all tree : SpecComplete.Document tree -> forall o, InTree tree o -> is_node o = true -> ekind o = PARAM ->
  headed (el o) = true.
Proof.
  intros (ms & tl & -> & HR & Ht & _) o Ho Hn Hk. pose proof (Desc_Sub _ _ Ho) as Hs. cbn [root_of el] in Hs.
  unfold is_node in Hn. unfold ekind in Hk. destruct (el o) as [|k cs]; [discriminate Hn|]. cbn in Hk. subst k.
  inversion Hs; subst. destruct (below_app ms tl) with (g := c) (k := PARAM) (cs := cs) as [E|E]; auto; [|now apply below_trivia|discriminate E].
  eapply reads_below; [exact HR|apply module_okall].
Qed.
Lemma framed tree : SpecComplete.Document tree -> forall o, InTree tree o -> is_node o = true -> ekind o = PARAM -> Framed (el o).
Proof.
  intros D o Ho Hn Hk. pose proof (document_headed_all _ D o Ho Hn Hk) as HH.
  assert (HE : forall g, hd_error (rev (gchildren (el o))) = Some g -> significant g = true).
  { intros g. apply (document_ends tree D o g Ho). rewrite Hk. discriminate. }
  pose proof (Desc_Sub _ _ Ho) as Hs. cbn [root_of el] in Hs. unfold is_node in Hn. unfold ekind in Hk.
  destruct (el o) as [|k cs]; [discriminate Hn|]. cbn in Hk. subst k. cbn [gchildren] in *.
  assert (M : Matches (production PARAM) (filter significant cs)).
  { eapply (C42_nodes false); [apply (ThmComplete.C48_complete false), D|exact Hs|discriminate]. }
  cbn [production form seq app] in M. inversion M as [| | | |? ? l1 m1 M1 M2 E1 E2| | | |]; subst. inversion M1 as [|k t| | | | | | |]; subst.
  inversion M2 as [| | | |? ? l2 m2 M3 M4 E3 E4| | | |]; subst. inversion M3; subst. inversion M4 as [| | | |? ? l3 m3 M5 M6 E5 E6| | | |]; subst.
  inversion M6 as [|k t2| | | | | | |]; subst. cbn [app] in E2.
  destruct cs as [|c cs]; [discriminate E2|]. cbn [headed] in HH. apply headed_sig in HH. cbn [filter] in E2. rewrite HH in E2.
  injection E2 as <- E2. clear M M1 M2 M3 M4 M5 M6.
  destruct (rev cs) as [|g r] eqn:E.
  { assert (cs = []) as -> by (rewrite <- (rev_involutive cs), E; reflexivity). discriminate E2. }
  assert (Hcs : cs = rev r ++ [g]) by (rewrite <- (rev_involutive cs), E; reflexivity). subst cs.
  assert (G : significant g = true). { apply HE. cbn [rev]. rewrite E. reflexivity. }
  rewrite filter_app in E2. cbn [filter] in E2. rewrite G in E2.
  rewrite app_comm_cons in E2. apply app_inj_tail in E2 as [_ <-]. exists t, t2, (rev r). reflexivity.
Qed.
Lemma clean tree : SpecComplete.Document tree -> forall e, InTree tree e -> is_node e = false -> ekind e <> ERROR.
Proof.
  intros (ms & tl & E & _ & _ & HS) e He Hn K. pose proof (Desc_Sub _ _ He) as Hs. cbn [root_of el] in Hs.
  unfold is_node in Hn. unfold ekind in K. destruct (el e) as [k t|]; [|discriminate Hn]. cbn in K. subst k.
  apply Sub_token in Hs. unfold HasToken in Hs. clear E. revert Hs HS. generalize (gtokens tree).
  induction l as [|[k u] l IH]; cbn [In SpecComplete.Separated]; [intros []|]. intros [E|H] (F & _ & S); [|now apply IH].
  injection E as -> ->. now destruct F as [_ []].
Qed.

(** ** Selections from one token to another *)

Section One.
  Variable src : text.
  Notation tree := (tree_of src).
  Lemma rowan_span x y r : estart x <= eend y -> SpanOf src x y r ->
    rowan_range (new_line_index src) (fst r) (snd r) = RangeOk (estart x) (eend y).
  Proof.
    intros H [A B]. unfold rowan_range. rewrite (line_col_inv _ _ _ A), (line_col_inv _ _ _ B). now rewrite (proj2 (Nat.leb_le _ _) H).
  Qed.
  Lemma child_holds n c s : In c (children_with_tokens n) -> Desc n s -> is_node s = false -> InTree tree s ->
    estart c <= estart s -> eend s <= eend c -> Desc c s.
  Proof.
    intros Hc D N T L1 L2. pose proof (tok_pos _ _ T N) as P. apply Desc_top in D as [E|(d & Hd & D)].
    { subst s. unfold children_with_tokens in Hc. unfold is_node in N. destruct (el n); [destruct Hc|discriminate N]. }
    destruct (Desc_range _ _ D) as [R1 R2]. apply in_split in Hc as (l & r & E). rewrite E in Hd. apply in_app_or in Hd as [Hd|[->|Hd]].
    - pose proof (children_before _ _ _ _ E d Hd). lia.
    - exact D.
    - apply in_split in Hd as (r1 & r2 & ->). rewrite app_comm_cons, app_assoc in E.
      pose proof (children_before _ _ _ _ E c ltac:(apply in_or_app; right; now left)). lia.
  Qed.
  Lemma tok_ends s u : InTree tree s -> InTree tree u -> is_node s = false -> is_node u = false -> estart s <= estart u -> eend s <= eend u.
  Proof.
    intros Ts Tu Ns Nu L. pose proof (tok_pos _ _ Tu Nu). destruct (earlier_total src s u Ts Tu Ns Nu) as [->|[E|E]]; [lia| |].
    - destruct E as (p & l & ga & m & gb & r & ca & cb & _ & _ & -> & -> & D1 & D2). apply Desc_range in D1, D2.
      unfold estart, eend in *. cbn [off el] in *. rewrite glens_app, glens_cons in *. lia.
    - apply earlier_start in E; [lia|exact Tu|exact Nu].
  Qed.
  Lemma child_range n c s u : InTree tree s -> InTree tree u -> is_node s = false -> is_node u = false -> estart s <= estart u ->
    Desc n s -> Desc n u ->
    (child_at_range n (estart s) (eend u) = Some c <-> In c (children_with_tokens n) /\ Desc c s /\ Desc c u).
  Proof.
    intros Ts Tu Ns Nu L Ds Du. pose proof (tok_pos _ _ Tu Nu). pose proof (tok_ends _ _ Ts Tu Ns Nu L). split.
    - intros H1. apply child_at_range_sound in H1 as [Hc [E1 E2]]. split; [exact Hc|].
      split; eapply child_holds; eauto; lia.
    - intros (Hc & D1 & D2). apply Desc_range in D1, D2. apply child_at_range_found; [lia|exact Hc|]. split; [split; lia|left; lia].
  Qed.
End One.

Section Alike.
  Variable Name : text -> text -> Prop.
  Variable src src' : text.
  Notation tree := (tree_of src).
  Notation tree' := (tree_of src').
  Hypothesis HS : Sim Name tree tree'.
  Notation R := (R Name tree tree').
  Notation RN := (RN Name src src').
  Hypothesis D : SpecComplete.Document tree.
  Hypothesis D' : SpecComplete.Document tree'.
  Notation R_kind := (Alike.R_kind Name tree tree').
  Notation R_is_node := (Alike.R_is_node Name tree tree').
  Variables (s u s' u' : elem).
  Hypothesis Rs : R s s'.
  Hypothesis Ru : R u u'.
  Hypothesis Ns : is_node s = false.
  Hypothesis Nu : is_node u = false.
  Hypothesis L : estart s <= estart u.

  Lemma Ns' : is_node s' = false.
  Proof. now rewrite <- (R_is_node _ _ Rs). Qed.
  Lemma Nu' : is_node u' = false.
  Proof. now rewrite <- (R_is_node _ _ Ru). Qed.
  Lemma L' : estart s' <= estart u'.
  Proof. apply Nat.leb_le. rewrite <- (start_leb Name src src' HS s s' u u' Rs Ru Ns Nu). now apply Nat.leb_le. Qed.

  Lemma visited_R f : forall f' n n', R n n' -> gsize (el n) <= f -> gsize (el n') <= f' -> Desc n s -> Desc n u ->
    Forall2 RN (visited f n (estart s) (eend u)) (visited f' n' (estart s') (eend u')).
  Proof.
    pose proof (R_in _ _ _ _ _ Rs) as Ts. pose proof (R_in _ _ _ _ _ Ru) as Tu. pose proof (R_in' _ _ _ _ _ Rs) as Ts'. pose proof (R_in' _ _ _ _ _ Ru) as Tu'.
    assert (Z : forall g, 1 <= gsize g) by (intros []; cbn; lia).
    induction f as [|f IH]; intros f' n n' Rn F F' Ds Du; [specialize (Z (el n)); lia|].
    destruct f' as [|f']; [specialize (Z (el n')); lia|]. cbn [visited].
    pose proof (proj1 (R_desc Name src src' _ _ _ _ Rn Rs) Ds) as Ds'. pose proof (proj1 (R_desc Name src src' _ _ _ _ Rn Ru) Du) as Du'.
    destruct (child_at_range n (estart s) (eend u)) as [c|] eqn:E.
    - apply (child_range src n c s u Ts Tu Ns Nu L Ds Du) in E as (Hc & D1 & D2).
      assert (Sc : sigE c = true).
      { eapply above_sig; [|exact D1|apply (R_sig _ _ _ _ _ Rs)]. econstructor; [|exact Hc]. apply Rn. }
      destruct (F2_in_l _ _ _ c (R_kids _ _ _ _ _ Rn)) as (c' & Hc' & Rc); [apply filter_In; auto|]. apply filter_In in Hc' as [Hc' _].
      pose proof (proj1 (R_desc Name src src' _ _ _ _ Rc Rs) D1) as D1'. pose proof (proj1 (R_desc Name src src' _ _ _ _ Rc Ru) D2) as D2'.
      rewrite (proj2 (child_range src' n' c' s' u' Ts' Tu' Ns' Nu' L' Ds' Du')) by auto.
      rewrite <- (R_is_node _ _ Rc). destruct (is_node c) eqn:Nc; [|constructor]. constructor; [split; auto|].
      assert (G : forall p q, In q (children_with_tokens p) -> gsize (el q) < gsize (el p)).
      { intros p q Hq. apply child_in in Hq as (l & g & r & Eq & ->). cbn [el]. destruct (el p) as [|k cs]; [destruct l; discriminate|].
        cbn [gchildren] in Eq. apply gsize_child. rewrite Eq. apply in_elt. }
      pose proof (G _ _ Hc). pose proof (G _ _ Hc'). apply IH; auto; lia.
    - destruct (child_at_range n' (estart s') (eend u')) as [c'|] eqn:E'; [|constructor]. exfalso.
      apply (child_range src' n' c' s' u' Ts' Tu' Ns' Nu' L' Ds' Du') in E' as (Hc' & D1' & D2').
      assert (Sc : sigE c' = true).
      { eapply above_sig; [|exact D1'|apply (R_sig _ _ _ _ _ Rs)]. econstructor; [|exact Hc']. apply Rn. }
      destruct (F2_in_r _ _ _ c' (R_kids _ _ _ _ _ Rn)) as (c & Hc & Rc); [apply filter_In; auto|]. apply filter_In in Hc as [Hc _].
      pose proof (proj2 (R_desc Name src src' _ _ _ _ Rc Rs) D1') as D1. pose proof (proj2 (R_desc Name src src' _ _ _ _ Rc Ru) D2') as D2.
      rewrite (proj2 (child_range src n c s u Ts Tu Ns Nu L Ds Du)) in E by auto. discriminate E.
  Qed.

  (** ** One node *)

  Notation SA := (SameAction src src').
  Lemma R_vts n n' : R n n' -> Forall2 R (val_types n) (val_types n').
  Proof. intros H. apply F2_filter; [|now apply R_children]. intros c c' Hc. unfold is_val_type. now rewrite (R_kind _ _ Hc). Qed.
  Lemma vt_text v v' : R v v' -> is_node v = true -> ekind v = VAL_TYPE -> etext v = etext v'.
  Proof.
    intros H N K. pose proof (R_is_node _ _ H) as N'. pose proof (R_kind _ _ H) as K'. rewrite N in N'. rewrite K in K'.
    pose proof (Desc_Sub _ _ (R_in _ _ _ _ _ H)) as S1. pose proof (Desc_Sub _ _ (R_in' _ _ _ _ _ H)) as S2. cbn [root_of el] in S1, S2.
    pose proof (R_sim _ _ _ _ _ H) as X. unfold is_node, ekind, etext in *.
    destruct (el v) as [|k cs]; [discriminate N|]. destruct (el v') as [|k' cs']; [discriminate N'|]. cbn in K, K'. subst k k'.
    destruct (val_type_node src cs S1) as (k & t & y & -> & _ & Hk). destruct (val_type_node src' cs' S2) as (k' & t' & y' & -> & _ & Hk').
    assert (Z : forall k (P1 P2 P3 : Prop), k = NUM_TYPE /\ P1 \/ k = VEC_TYPE /\ P2 \/ k = REF_TYPE /\ P3 -> significant (Tok k t) = true /\ significant (Tok k t') = true /\ kind_eqb k IDENT = false).
    { intros ? ? ? ? [[-> _]|[[-> _]|[-> _]]]; auto. }
    destruct (Z _ _ _ _ Hk) as (Z1 & _ & Z2). destruct (Z _ _ _ _ Hk') as (_ & Z1' & _).
    inversion X as [|? ? ? HF E1 E2]; subst. cbn [filter] in HF. rewrite Z1, Z1' in HF. inversion HF as [|? ? ? ? HT _]; subst.
    inversion HT as [? ? ? _ Ht|]; subst. rewrite Z2 in Ht. subst t'. reflexivity.
  Qed.
  Lemma vts_texts n n' : R n n' -> map etext (val_types n) = map etext (val_types n').
  Proof.
    intros H. pose proof (R_vts _ _ H) as HF.
    assert (In : forall v, In v (val_types n) -> is_node v = true /\ ekind v = VAL_TYPE).
    { intros v Hv. apply filter_In in Hv as [H1 H2]. apply filter_In in H1 as [_ H1]. split; [exact H1|now apply kind_eqb_eq]. }
    revert In. induction HF as [|v v' l l' Hv _ IH]; intros In; [reflexivity|]. cbn [map]. f_equal.
    - destruct (In v (or_introl eq_refl)). now apply vt_text.
    - apply IH. intros w Hw. apply In. now right.
  Qed.
  Lemma same_span x x' y y' : R x x' -> R y y' ->
    AnsR (SameSpan src src') (amust (lsp_range (new_line_index src) (estart x) (eend y))) (amust (lsp_range (new_line_index src') (estart x') (eend y'))).
  Proof.
    intros Hx Hy. destruct (range_of_ok src x (R_in _ _ _ _ _ Hx)) as (r1 & _ & A1 & _). destruct (range_of_ok src y (R_in _ _ _ _ _ Hy)) as (r2 & _ & _ & A2).
    destruct (range_of_ok src' x' (R_in' _ _ _ _ _ Hx)) as (r3 & _ & A3 & _). destruct (range_of_ok src' y' (R_in' _ _ _ _ _ Hy)) as (r4 & _ & _ & A4).
    unfold lsp_range. rewrite A1, A2, A3, A4. cbn [amust]. constructor. exists x, x', y, y'.
    split; [exact (R_counterpart _ _ _ _ _ Hx)|]. split; [exact (R_counterpart _ _ _ _ _ Hy)|]. repeat split; assumption.
  Qed.

  Lemma A_split n n' k : R n n' -> AnsR (Forall2 SA) (split_act src n k) (split_act src' n' k).
  Proof.
    intros H. unfold split_act. pose proof (vts_texts _ _ H) as E. destruct (val_types n) as [|a [|b l]], (val_types n') as [|a' [|b' l']]; try discriminate E; try (constructor; constructor).
    destruct (split_keyword k) as [[kw title]|]; [|constructor; constructor].
    eapply AR_bind; [exact (same_span _ _ _ _ H H)|]. intros r r' Hr. constructor. constructor; [|constructor]. split; [reflexivity|].
    constructor; [|constructor]. split; [exact Hr|]. cbn [snd]. rewrite !split_text_spaced. f_equal.
    rewrite <- !(map_map etext (fun x => Text.T "(" ++ kw ++ Text.T " " ++ x ++ Text.T ")")). now rewrite E.
  Qed.

  (** The parenthesis at the start of a parameter group, and the one at its end. *)
  Lemma param_ends c : Framed (el c) -> exists f l, is_node f = false /\ is_node l = false /\ estart f = estart c /\ eend l = eend c
      /\ hd_error (scwt c) = Some f /\ hd_error (rev (scwt c)) = Some l.
  Proof.
    intros (a & b & m & E). set (m0 := Tok L_PAREN a :: m). assert (E' : gchildren (el c) = m0 ++ [Tok R_PAREN b]) by exact E.
    exists (mk_elem (Tok L_PAREN a) (off c) (mk_up (el c) (off c) 0 :: ups c)).
    exists (mk_elem (Tok R_PAREN b) (off c + glens m0) (mk_up (el c) (off c) (length m0) :: ups c)).
    split; [reflexivity|]. split; [reflexivity|]. split; [reflexivity|]. split.
    - unfold eend. cbn [off el]. replace (glen (el c)) with (glens (gchildren (el c))).
      + rewrite E', glens_app, glens_cons. cbn [glens]. unfold glens. cbn. lia.
      + destruct (el c); [discriminate E|reflexivity].
    - unfold scwt, children_with_tokens. split.
      + rewrite E. reflexivity.
      + rewrite E', HoverFacts.kids_app, filter_app. cbn [kids filter]. cbn. rewrite rev_app_distr. reflexivity.
  Qed.
  Lemma param_R c c' : R c c' -> is_node c = true -> ekind c = PARAM ->
    Nat.leb (estart s) (estart c) = Nat.leb (estart s') (estart c') /\ Nat.leb (eend c) (eend u) = Nat.leb (eend c') (eend u').
  Proof.
    intros H N K. pose proof (R_is_node _ _ H) as N'. pose proof (R_kind _ _ H) as K'. rewrite N in N'. rewrite K in K'.
    destruct (param_ends c) as (f & l & Nf & Nl & Ef & El & Hf & Hl); [apply (framed tree D); auto; apply H|].
    destruct (param_ends c') as (f' & l' & Nf' & Nl' & Ef' & El' & Hf' & Hl'); [apply (framed tree' D'); auto; apply H|].
    pose proof (R_kids _ _ _ _ _ H) as HK. pose proof (F2_hd _ _ _ HK) as H1. pose proof (F2_hd _ _ _ (F2_rev _ _ _ HK)) as H2.
    rewrite Hf, Hf' in H1. rewrite Hl, Hl' in H2. inversion H1 as [|? ? Rf]; subst. inversion H2 as [|? ? Rl]; subst.
    rewrite <- Ef, <- Ef', <- El, <- El'. split; [now apply (start_leb Name src src' HS)|].
    assert (Z : forall x l u, InTree (tree_of x) l -> InTree (tree_of x) u -> is_node l = false -> is_node u = false ->
      Nat.leb (eend l) (eend u) = Nat.leb (estart l) (estart u)).
    { intros x k v T1 T2 N1 N2. destruct (Nat.leb_spec (estart k) (estart v)) as [A|A].
      - apply Nat.leb_le. now apply (tok_ends x).
      - apply Nat.leb_gt. pose proof (tok_pos _ _ T1 N1). destruct (earlier_total x v k T2 T1 N2 N1) as [->|[B|B]]; [lia| |].
        + destruct B as (p & l0 & ga & m & gb & r & ca & cb & _ & _ & -> & -> & D1 & D2). apply Desc_range in D1, D2.
          unfold estart, eend in *. cbn [off el] in *. rewrite glens_app, glens_cons in *. lia.
        + apply earlier_start in B; [lia|exact T1|exact N1]. }
    rewrite (Z src), (Z src'); try assumption; try apply Rl; try apply Ru; [|apply Nu']. now apply (start_leb Name src src' HS).
  Qed.
  Lemma R_joinable c c' : R c c' -> is_node c = true -> joinable (estart s) (eend u) c = joinable (estart s') (eend u') c'.
  Proof.
    intros H N. unfold joinable. rewrite <- (R_kind _ _ H). destruct (kind_eqb (ekind c) PARAM) eqn:K; [|reflexivity]. apply kind_eqb_eq in K.
    destruct (param_R c c' H N K) as [-> ->]. cbn [andb]. f_equal. f_equal.
    assert (Z : forall e, existsb (fun x => kind_eqb (ekind x) IDENT) (children_with_tokens e) = existsb (fun x => kind_eqb (ekind x) IDENT) (scwt e)).
    { intros e. unfold scwt. induction (children_with_tokens e) as [|x l IH]; [reflexivity|]. cbn [filter existsb]. rewrite IH.
      destruct (sigE x) eqn:S; [reflexivity|]. unfold sigE, significant in S. unfold ekind. destruct (el x) as [k t|]; [|discriminate S].
      cbn [gkind]. destruct k; try discriminate S; reflexivity. }
    rewrite !Z. pose proof (R_kids _ _ _ _ _ H) as HK. clear - HK. induction HK as [|x x' l l' Hx _ IH]; [reflexivity|]. cbn [existsb].
    now rewrite (R_kind _ _ Hx), IH.
  Qed.

  Lemma F2_take {A B} (P : A -> B -> Prop) f g l l' : Forall2 (fun a b => P a b /\ f a = g b) l l' -> Forall2 P (Action.take_while f l) (Action.take_while g l').
  Proof. induction 1 as [|a b l l' [H E] _ IH]; cbn [Action.take_while]; [constructor|]. rewrite E. destruct (g b); constructor; auto. Qed.
  Lemma F2_skip {A B} (P : A -> B -> Prop) f g l l' : Forall2 (fun a b => P a b /\ f a = g b) l l' ->
    Forall2 (fun a b => P a b /\ f a = g b) (Action.skip_while (fun c => negb (f c)) l) (Action.skip_while (fun c => negb (g c)) l').
  Proof.
    induction 1 as [|a b l l' [H E] HF IH]; cbn [Action.skip_while]; [constructor|]. rewrite E. destruct (g b) eqn:G; cbn [negb]; [|exact IH].
    constructor; [split; congruence|exact HF].
  Qed.
  Lemma R_joined n n' : R n n' -> Forall2 R (joined n (estart s) (eend u)) (joined n' (estart s') (eend u')).
  Proof.
    intros H. unfold joined. apply F2_take, F2_skip. pose proof (R_children _ _ _ _ _ H) as HF.
    assert (N : forall c, In c (children n) -> is_node c = true) by (intros c Hc; now apply filter_In in Hc as [_ Hc]).
    revert N. induction HF as [|c c' l l' Hc _ IH]; intros N; constructor.
    - split; [exact Hc|]. apply R_joinable; [exact Hc|]. apply N. now left.
    - apply IH. intros x Hx. apply N. now right.
  Qed.
  Lemma last_R l l' d d' : Forall2 R l l' -> R d d' -> R (last l d) (last l' d').
  Proof.
    intros HF Hd. induction HF as [|a b l l' Hab HF IH]; [exact Hd|]. cbn [last]. destruct HF; [exact Hab|exact IH].
  Qed.
  Lemma A_join n n' : R n n' -> AnsR (Forall2 SA) (join_act src n (estart s) (eend u)) (join_act src' n' (estart s') (eend u')).
  Proof.
    intros H. unfold join_act. pose proof (R_joined _ _ H) as HF. destruct HF as [|p p' ps ps' Hp Hps]; [constructor; constructor|].
    assert (E : map etext (flat_map val_types (p :: ps)) = map etext (flat_map val_types (p' :: ps'))).
    { assert (HF : Forall2 R (p :: ps) (p' :: ps')) by (constructor; assumption). clear - HF. induction HF as [|a b l l' Hab _ IH]; [reflexivity|].
      cbn [flat_map]. rewrite !map_app, IH. f_equal. now apply vts_texts. }
    destruct (flat_map val_types (p :: ps)) as [|a [|b l]], (flat_map val_types (p' :: ps')) as [|a' [|b' l']]; try discriminate E; try (constructor; constructor).
    eapply AR_bind; [exact (same_span _ _ _ _ Hp (last_R _ _ _ _ Hps Hp))|]. intros r r' Hr. constructor. constructor; [|constructor].
    split; [reflexivity|]. constructor; [|constructor]. split; [exact Hr|]. cbn [snd]. rewrite !join_text_spaced. now rewrite E.
  Qed.
  Lemma mem_none x n : SpecComplete.Document (tree_of x) -> InTree (tree_of x) n -> mem_arg_act x n = Ans [].
  Proof.
    intros Dx T. unfold mem_arg_act. assert (E : forall l, (forall c, In c l -> is_tok ERROR c = false) -> mem_arg_spaces l = []).
    { induction l as [|c l IH]; intros H; [reflexivity|]. cbn [mem_arg_spaces]. rewrite (H c (or_introl eq_refl)). apply IH. intros d Hd. apply H. now right. }
    rewrite E; [reflexivity|]. intros c Hc. destruct (is_tok ERROR c) eqn:X; [|reflexivity]. apply is_tok_iff in X as [N K].
    exfalso. apply (clean _ Dx c); auto. econstructor; eauto.
  Qed.
  Lemma A_act w n n' : RN n n' -> AnsR (Forall2 SA) (act_on src w (estart s) (eend u) n) (act_on src' w (estart s') (eend u') n').
  Proof.
    intros [H N]. unfold act_on. rewrite <- (R_kind _ _ H).
    assert (Z : AnsR (Forall2 SA) (Ans []) (Ans [])) by (constructor; constructor).
    destruct (ekind n); try exact Z; try (destruct (w_rewrite w); [|exact Z]; try (now apply A_split); now apply A_join).
    destruct (w_quickfix w); [|exact Z]. rewrite (mem_none src), (mem_none src'); auto; apply H.
  Qed.
  Lemma A_code_action w r r' : SpanOf src s u r -> SpanOf src' s' u' r' ->
    AnsR (Forall2 SA) (code_action src w (fst r) (snd r)) (code_action src' w (fst r') (snd r')).
  Proof.
    intros Sr Sr'. pose proof (R_in _ _ _ _ _ Rs) as Ts. pose proof (R_in _ _ _ _ _ Ru) as Tu. pose proof (R_in' _ _ _ _ _ Rs) as Ts'. pose proof (R_in' _ _ _ _ _ Ru) as Tu'.
    unfold code_action. rewrite (rowan_span src s u r), (rowan_span src' s' u' r'); auto.
    2:{ pose proof (tok_pos _ _ Tu' Nu'). pose proof L'. lia. } 2:{ pose proof (tok_pos _ _ Tu Nu). lia. }
    eapply AR_bind.
    - eapply AR_map; [intros n n' H; apply (A_act w n n' H)|]. apply visited_R; [|reflexivity|reflexivity|exact Ts|exact Tu].
      now apply R_root.
    - intros l l' Hl. pose proof (F2_concat _ _ _ Hl) as HF. destruct HF; constructor. constructor; assumption.
  Qed.
End Alike.
