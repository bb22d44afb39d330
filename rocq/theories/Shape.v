(** Shape of parse trees: every node follows a grammar rule of its kind. *)

From Coq Require Import String List NArith Bool Arith Lia.
From Verif Require Import Text Kind Green SpecParser Lexer LexerFacts Winnow Grammar Sem Lossless Total
  Bounds Lang TokForm.
Import ListNotations.

(** Grammar rules [(kind, body)] of a term. *)
Fixpoint node_rules (g : grammar) : list (kind * grammar) :=
  match g with
  | GNode k a => (k, a) :: node_rules a
  | GSeq a b | GAlt a b | GTill a b | GIf _ _ a b => node_rules a ++ node_rules b
  | GOpt a | GRep a | GRep1 a | GCtx _ a | GRetry a _ | GRetryOnce a _ | GMust a => node_rules a
  | GTok _ _ | GTriv | GEmpty | GFail | GRParen | GInstr => []
  end.

Lemma junk_sub j x k cs : junk j -> In x j -> Sub x (Node k cs) -> False.
Proof.
  intros [Hf _] Hin Hs. rewrite Forall_forall in Hf. apply Hf in Hin.
  destruct x as [k' t|k' cs']; [inversion Hs|]. destruct Hin as [[]|[]].
Qed.
Lemma trivia_sub tr x k cs : Forall is_trivia_tok tr -> In x tr -> Sub x (Node k cs) -> False.
Proof.
  intros Hf Hin Hs. rewrite Forall_forall in Hf. apply Hf in Hin.
  destruct x as [k' t|k' cs']; [inversion Hs|]. destruct Hin.
Qed.

Lemma Lang_rules ib strict g o x k cs :
  Lang ib strict g o -> In x o -> Sub x (Node k cs) ->
  exists a, In (k, a) (node_rules g ++ node_rules ib) /\ Lang ib strict a cs.
Proof.
  intros H. revert x.
  induction H; intros x Hin Hs; cbn [node_rules app];
    try (apply in_app_or in Hin as [Hin|Hin]);
    try (exfalso; eapply junk_sub; eassumption);
    try (exfalso; eapply trivia_sub; eassumption);
    try (exfalso; exact Hin);
    try (match goal with
         | IH : forall y, In y ?o -> _, Hi : In ?x ?o |- _ =>
             destruct (IH x Hi Hs) as (a' & Ha & Hl); exists a'; split; [|exact Hl];
             cbn [node_rules] in Ha;
             rewrite ?in_app_iff in *; tauto
         end).
  - destruct Hin as [<-|[]]. inversion Hs.
  - destruct Hin as [<-|[]]. inversion Hs; subst.
    + exists a. split; [now left|assumption].
    + destruct (IHLang _ ltac:(eassumption) ltac:(eassumption)) as (a' & Ha & Hl).
      exists a'. split; [|exact Hl]. right. exact Ha.
  - destruct Hin as [<-|[]]. inversion Hs.
  - destruct (IHLang x Hin Hs) as (a' & Ha & Hl). exists a'. split; [|exact Hl].
    exact Ha.
Qed.

(** Tokens. *)
Lemma Lang_toks ib strict P g o k t :
  toks P ib -> Lang ib strict g o -> toks P g -> In (k, t) (gtokenss o) ->
  P k t \/ is_trivia_tok (Tok k t) \/ (k, t) = (R_PAREN, T ")")
  \/ (strict = false /\ k = ERROR /\ t <> []).
Proof.
  intros Hib H.
  assert (HT : forall tr, Forall is_trivia_tok tr -> In (k, t) (gtokenss tr) -> is_trivia_tok (Tok k t)).
  { intros tr Hf Hin. unfold gtokenss in Hin. apply in_concat in Hin as (l & Hl & Hin).
    apply in_map_iff in Hl as (x & <- & Hx). rewrite Forall_forall in Hf. apply Hf in Hx as Hx2.
    destruct x; [|contradiction]. simpl in Hin. destruct Hin as [Heq|[]]. injection Heq as -> ->. exact Hx2. }
  assert (HJ : forall j, junk j -> In (k, t) (gtokenss j) ->
     is_trivia_tok (Tok k t) \/ (k = ERROR /\ t <> [])).
  { intros j [Hf _] Hin. unfold gtokenss in Hin. apply in_concat in Hin as (l & Hl & Hin).
    apply in_map_iff in Hl as (x & <- & Hx). rewrite Forall_forall in Hf. apply Hf in Hx as Hx2.
    destruct x; [|destruct Hx2 as [[]|[]]]. simpl in Hin. destruct Hin as [Heq|[]].
    injection Heq as -> ->. destruct Hx2 as [?|Hx2]; [auto|]. right. exact Hx2. }
  induction H; cbn [toks]; intros Hg Hin;
    repeat match goal with H : _ /\ _ |- _ => destruct H end;
    rewrite ?gtokenss_app, ?in_app_iff in Hin;
    try (match type of Hin with _ \/ _ => destruct Hin as [Hin|Hin] end);
    try (right; left; eapply HT; eassumption);
    try (match goal with Hj : junk ?j, Hi : In _ (gtokenss ?j) |- _ =>
       destruct (HJ _ Hj Hi) as [?|?]; tauto end);
    try (exfalso; exact Hin);
    try (match goal with IH : _ -> In _ (gtokenss ?o) -> _ |- _ => apply IH; assumption end).
  - simpl in Hin. destruct Hin as [Heq|[]]. injection Heq as <- <-. left. eapply Hg; eauto.
  - apply IHLang2; [split; assumption|assumption].
  - unfold gtokenss in Hin. simpl in Hin. rewrite app_nil_r in Hin. apply IHLang; assumption.
  - simpl in Hin. destruct Hin as [Heq|[]]. injection Heq as <- <-. auto.
Qed.

(** ** The whole tree *)

Theorem parse_lang dbg src tree errs :
  parse dbg src = Parsed tree errs ->
  exists o1 o2, tree = Node ROOT (o1 ++ o2)
    /\ Lang instr_body false (GRep (GRetryOnce module [])) o1
    /\ (errs = [] -> Lang instr_body true (GRep (GRetryOnce module [])) o1)
    /\ Forall (fun g => is_trivia_tok g \/ is_error_tok g) o2.
Proof.
  intros H. apply parse_spec in H as (o1 & s1 & o2 & s2 & -> & Hev & Hl & ->).
  apply root_loop_spec in Hl as (o2' & s2' & Heq & I2 & Hlog & Hf & _); [|exact I].
  injection Heq as <- <-.
  exists o1, o2. split; [reflexivity|].
  split; [|split].
  - apply (Ev_lang _ _ false _ _ _ instr_body_wf Hev module_wf). discriminate.
  - intros He. apply (Ev_lang _ _ true _ _ _ instr_body_wf Hev module_wf). intros _. simpl.
    rewrite <- Hlog. destruct (rest s2).
    + rewrite <- (rev_involutive (log s2)), He. reflexivity.
    + simpl in He. apply (f_equal (@length _)) in He. rewrite app_length in He. simpl in He. lia.
  - exact Hf.
Qed.

(** All grammar rules. *)
Definition all_rules : list (kind * grammar) := node_rules module ++ node_rules instr_body.

Theorem parse_rules dbg src tree errs k cs :
  parse dbg src = Parsed tree errs -> Sub tree (Node k cs) ->
  (k = ROOT /\ tree = Node k cs) \/
  (exists a, In (k, a) all_rules /\ Lang instr_body false a cs
             ).
Proof.
  intros H Hs. apply parse_lang in H as (o1 & o2 & -> & HL & HLt & Hf).
  inversion Hs as [|? ? c ? Hin Hsub]; subst; [now left|]. right.
  apply in_app_or in Hin as [Hin|Hin].
  - destruct (Lang_rules _ _ _ _ _ _ _ HL Hin Hsub) as (a & Ha & Hl). eauto.
  - exfalso. rewrite Forall_forall in Hf. apply Hf in Hin.
    destruct c; [inversion Hsub|destruct Hin as [[]|[]]].
Qed.

Theorem parse_rules_strict dbg src tree k cs :
  parse dbg src = Parsed tree [] -> Sub tree (Node k cs) ->
  (k = ROOT /\ tree = Node k cs) \/
  (exists a, In (k, a) all_rules /\ Lang instr_body true a cs).
Proof.
  intros H Hs. apply parse_lang in H as (o1 & o2 & -> & HL & HLt & Hf).
  specialize (HLt eq_refl).
  inversion Hs as [|? ? c ? Hin Hsub]; subst; [now left|]. right.
  apply in_app_or in Hin as [Hin|Hin].
  - destruct (Lang_rules _ _ _ _ _ _ _ HLt Hin Hsub) as (a & Ha & Hl). eauto.
  - exfalso. rewrite Forall_forall in Hf. apply Hf in Hin.
    destruct c; [inversion Hsub|destruct Hin as [[]|[]]].
Qed.

Lemma trivia_form k t : is_trivia_tok (Tok k t) -> GoodTok k t.
Proof. intros (H & _ & Hf). split; [|exact Hf]. intros ->. discriminate. Qed.

Lemma rep_module_toks : toks GoodTok (GRep (GRetryOnce module [])).
Proof. apply module_toks. Qed.

Lemma trailing_token o2 k t :
  Forall (fun g => is_trivia_tok g \/ is_error_tok g) o2 -> In (k, t) (gtokenss o2) ->
  (GoodTok k t \/ k = ERROR /\ t <> []) /\ In (Tok k t) o2.
Proof.
  intros Hf Hin. unfold gtokenss in Hin. apply in_concat in Hin as (l & Hl & Hin).
  apply in_map_iff in Hl as (x & <- & Hx). rewrite Forall_forall in Hf. pose proof (Hf _ Hx) as H.
  destruct x as [k' t'|]; [|destruct H as [[]|[]]]. simpl in Hin. destruct Hin as [Heq|[]].
  injection Heq as -> ->. split; [|exact Hx].
  destruct H as [H|H]; [left; now apply trivia_form|right; exact H].
Qed.

Theorem parse_tokens dbg src tree errs k t :
  parse dbg src = Parsed tree errs -> HasToken tree k t -> LexForm k t.
Proof.
  intros H Hin. apply parse_lang in H as (o1 & o2 & -> & HL & _ & Hf).
  unfold HasToken in Hin. cbn [gtokens] in Hin. rewrite map_app, concat_app in Hin.
  apply in_app_or in Hin as [Hin|Hin].
  - destruct (Lang_toks _ _ _ _ _ _ _ instr_body_toks HL rep_module_toks Hin)
      as [[_ H]|[H|[H|(_ & -> & H)]]].
    + exact H.
    + apply trivia_form in H. apply H.
    + injection H as -> ->. reflexivity.
    + exact H.
  - apply trailing_token in Hin as [[[_ H]|[-> H]] _]; [exact H|exact H|exact Hf].
Qed.

(** Without reported errors, ERROR tokens occur only at the top level, at the
    end of the document. *)
Theorem parse_error_tokens dbg src tree t :
  parse dbg src = Parsed tree [] -> HasToken tree ERROR t ->
  exists o1 o2, tree = Node ROOT (o1 ++ o2)
    /\ ~ In ERROR (map fst (gtokenss o1)) /\ In (Tok ERROR t) o2
    /\ Forall (fun g => is_trivia_tok g \/ is_error_tok g) o2.
Proof.
  intros H Hin. apply parse_lang in H as (o1 & o2 & -> & _ & HL & Hf). specialize (HL eq_refl).
  assert (Hno : forall t, ~ In (ERROR, t) (gtokenss o1)).
  { intros t' Hin'. destruct (Lang_toks _ _ _ _ _ _ _ instr_body_toks HL rep_module_toks Hin')
      as [[H _]|[H|[H|(H & _)]]]; try congruence. destruct H as (H & _). discriminate. }
  exists o1, o2. split; [reflexivity|]. split; [|split; [|exact Hf]].
  - intros Hi. apply in_map_iff in Hi as ([k' t'] & Hk & Hi). simpl in Hk. subst. now apply Hno in Hi.
  - unfold HasToken in Hin. cbn [gtokens] in Hin. rewrite map_app, concat_app in Hin.
    apply in_app_or in Hin as [Hin|Hin]; [now apply Hno in Hin|].
    now apply trailing_token in Hin.
Qed.

(** ** The first silent ERROR token is an unmatched closing parenthesis *)

Lemma root_loop_trivias dbg m t tr r :
  trivias_loop dbg m t = POk tr r ->
  forall n s o s2, rest s = t -> rep_loop dbg (root_item dbg) n s = ROk o s2 ->
  exists n' s' o', rest s' = r /\ o = tr ++ o' /\ rep_loop dbg (root_item dbg) n' s' = ROk o' s2.
Proof.
  revert t tr r. induction m as [|m IH]; intros t tr r; cbn [trivias_loop]; [congruence|].
  destruct (trivia1 dbg t) as [g t1| | |] eqn:E; try congruence.
  - destruct (trivias_loop dbg m t1) as [l r'| | |] eqn:E1; try congruence.
    intros H. injection H as <- <-. intros n s o s2 Hr. destruct n as [|n]; [discriminate|].
    cbn [rep_loop].
    assert (Hi : root_item dbg s = ROk [g] (mk_st t1 (pos s + glen g) (log s)))
      by (unfold root_item; rewrite Hr, E; reflexivity).
    rewrite Hi. apply root_item_consumes in Hi.
    destruct (Nat.eqb_spec (length (rest (mk_st t1 (pos s + glen g) (log s)))) (length (rest s)));
      [lia|].
    destruct (rep_loop dbg (root_item dbg) n _) as [o' s3| | |] eqn:E3; try congruence.
    intros H. injection H as <- <-.
    destruct (IH _ _ _ E1 n (mk_st t1 (pos s + glen g) (log s)) _ _ eq_refl E3) as (n' & s' & o2 & H1 & -> & H3).
    exists n', s', o2. auto.
  - intros H. injection H as <- <-. intros n s o s2 Hr H. exists n, s, o. auto.
Qed.

Lemma Ev_rep_last dbg ib a s o s1 :
  Ev dbg ib (GRep a) s (ROk o s1) ->
  exists s2 e s3, Ev dbg ib a s2 (RErr e s3) /\ s1 = reset s2 s3.
Proof.
  intros H. remember (GRep a) as g eqn:Eg. remember (ROk o s1) as r eqn:Er. revert o s1 Er.
  induction H; try discriminate; injection Eg as ->; intros o' s' Er.
  - injection Er as <- <-. eauto.
  - destruct r as [o2 s2| | |]; try discriminate. injection Er as <- <-. eauto.
Qed.

Lemma Ev_once_fail dbg ib a ns s e s1 :
  Ev dbg ib (GRetryOnce a ns) s (RErr e s1) ->
  exists tr r e' sz sw, trivias dbg (rest s) = POk tr r
    /\ recover dbg ns e' (reset (tadv s tr r) sz) = RecNone sw /\ s1 = reset s sw.
Proof. intros H. inversion H; subst. eauto 10. Qed.

Lemma error_token_parens t c r b :
  error_token b t = LErr c r ->
  t = [] \/ (exists x t', t = x :: t' /\ (x = c_quote /\ string_l t = LErr c r
     \/ b = false /\ x = c_lparen /\ c = [] \/ b = false /\ x = c_rparen
     \/ is_ascii_whitespace x = true)).
Proof.
  destruct t as [|x t]; [now left|]. intros H. right. exists x, t. split; [reflexivity|].
  revert H. unfold error_token.
  destruct (N.eqb_spec x c_dollar) as [->|Hd].
  { unfold l_seq, l_lit. cbn [strip_prefix]. rewrite N.eqb_refl. unfold l_while.
    destruct (span is_id_char t). simpl. congruence. }
  destruct (N.eqb_spec x c_lparen) as [->|Hl].
  { destruct b; [cbn; congruence|]. cbn. intros H. injection H as <- <-. auto. }
  destruct (N.eqb_spec x c_rparen) as [->|Hr].
  { destruct b; [cbn; congruence|]. auto. }
  cbn [orb]. destruct (N.eqb_spec x c_quote) as [->|Hq]; [auto|].
  destruct (is_id_char x) eqn:Ei.
  { unfold l_while1. cbn [span]. rewrite Ei. destruct (span is_id_char t). congruence. }
  unfold l_while1. cbn [span].
  destruct (is_ascii_whitespace x) eqn:Ew; [auto|].
  destruct (N.eqb_spec x c_lparen); [congruence|]. destruct (N.eqb_spec x c_rparen); [congruence|].
  cbn [orb negb]. destruct (span _ t). congruence.
Qed.

Theorem parse_silent_error dbg src tree t :
  parse dbg src = Parsed tree [] -> HasToken tree ERROR t ->
  exists o1 tr o3, tree = Node ROOT (o1 ++ tr ++ Tok ERROR (T ")") :: o3)
    /\ ~ In ERROR (map fst (gtokenss o1)) /\ Forall is_trivia_tok tr.
Proof.
  intros Hp Hin. pose proof Hp as Hp'.
  apply parse_spec in Hp as (o1 & s1 & o2 & s2 & -> & Hev & Hl & Herr).
  pose proof (Ev_lang _ _ true _ _ _ instr_body_wf Hev module_wf) as HL. simpl in HL.
  assert (Hlog2 : log s2 = [] /\ rest s2 = []).
  { destruct (rest s2).
    - split; [|reflexivity]. rewrite <- (rev_involutive (log s2)), <- Herr. reflexivity.
    - simpl in Herr. apply (f_equal (@length _)) in Herr. rewrite app_length in Herr. simpl in Herr. lia. }
  destruct Hlog2 as [Hlog2 Hrest2].
  pose proof Hl as Hl'. apply root_loop_spec in Hl' as (o2' & s2' & Heq & I2 & Hlog & Hf & _); [|exact I].
  injection Heq as <- <-.
  specialize (HL ltac:(intros _; congruence)).
  assert (Hno : forall t, ~ In (ERROR, t) (gtokenss o1)).
  { intros t' Hin'. destruct (Lang_toks _ _ _ _ _ _ _ instr_body_toks HL rep_module_toks Hin')
      as [[H _]|[H|[H|(H & _)]]]; try congruence. destruct H as (H & _). discriminate. }
  assert (HinT : In (ERROR, t) (gtokenss o2)).
  { unfold HasToken in Hin. cbn [gtokens] in Hin. rewrite map_app, concat_app in Hin.
    apply in_app_or in Hin as [Hin|Hin]; [now apply Hno in Hin|exact Hin]. }
  apply Ev_rep_last in Hev as (sx & e & sy & Hfail & Hs1).
  (* the last attempt at a module failed and could not recover *)
  apply Ev_once_fail in Hfail as (tr & r & e' & sz & sw & Htr & Hrec & ->).
  subst s1.
  pose proof (root_loop_trivias _ _ _ _ _ Htr _ (reset sx (reset sx sw)) o2 s2 eq_refl Hl)
    as (n' & s' & o' & Hr' & -> & Hloop).
  apply trivias_spec in Htr as (_ & Htv & Ht1).
  apply recover_none in Hrec as (_ & c & r2 & Het & Hr2 & Hterm & _). simpl in Het, Hr2.
  exists o1, tr.
  rewrite gtokenss_app in HinT. apply in_app_or in HinT as [HinT|HinT].
  { exfalso. assert (HH : is_trivia_tok (Tok ERROR t)).
    { unfold gtokenss in HinT. apply in_concat in HinT as (l & Hl0 & HinT).
      apply in_map_iff in Hl0 as (x & <- & Hx). rewrite Forall_forall in Htv. apply Htv in Hx.
      destruct x; [|contradiction]. simpl in HinT. destruct HinT as [Heq|[]]. injection Heq as -> ->. exact Hx. }
    destruct HH as [HH _]. discriminate. }
  assert (Hno' : ~ In ERROR (map fst (gtokenss o1))).
  { intros Hi. apply in_map_iff in Hi as ([k' t'] & Hk & Hi). simpl in Hk. subst. now apply Hno in Hi. }
  (* the trailing loop at [r] *)
  destruct n' as [|n']; [discriminate|]. cbn [rep_loop] in Hloop.
  unfold root_item at 1 in Hloop. rewrite Hr', Ht1 in Hloop.
  assert (Hstop : forall x y, error_token true r = LErr x y -> o' = []).
  { intros x y Hx. rewrite Hx in Hloop. congruence. }
  pose proof (error_token_parens r c r2 false Het) as [->|(x & t' & -> & Hcase)].
  { simpl in Hstop. rewrite (Hstop _ _ eq_refl) in HinT. contradiction. }
  destruct Hcase as [[-> Hs]|[(_ & -> & ->)|[(_ & ->)|Hw]]].
  - (* malformed string: the loop stops *)
    exfalso. rewrite (Hstop c r2) in HinT; [contradiction|]. exact Hs.
  - (* an opening parenthesis is always recovered *)
    exfalso. simpl in Hr2. subst r2. revert Hterm. clear.
    unfold error_term.
    match goal with |- context [la_triv ?f dbg ?t] => destruct (la_triv f dbg t) eqn:E end; try congruence.
    + exfalso. revert E. unfold la_triv. destruct (trivias dbg (c_lparen :: t')) as [tr1 r1| | |]; try congruence.
      destruct (strip_prefix (T "(") r1); [|congruence].
      destruct (trivias dbg t) as [tr2 r2| | |]; try congruence.
      unfold l_verify. destruct (word r2); simpl; congruence.
    + unfold error_term_inner.
      change (strip_prefix (T "(") (c_lparen :: t')) with (Some t'). cbv iota beta.
      pose proof (et_loop_not_err dbg (S (length t')) t').
      destruct (et_loop dbg (S (length t')) t') as [items t3| | |]; try congruence.
      destruct (opt_rparen_error t3). cbv beta iota; congruence.
  - (* an unmatched closing parenthesis *)
    cbn in Hloop. destruct (Nat.eqb _ _); [unfold assert_fail in Hloop; destruct dbg; congruence|].
    destruct (rep_loop dbg (root_item dbg) n' _) as [o3 s3| | |]; try congruence.
    injection Hloop as <- <-. exists o3. auto.
  - exfalso. assert (HH : exists x1 y1, error_token true (x :: t') = LErr x1 y1).
    { unfold error_token.
      assert (forall y, is_ascii_whitespace y = true -> N.eqb y c_dollar = false /\ N.eqb y c_lparen = false
        /\ N.eqb y c_rparen = false /\ N.eqb y c_quote = false /\ is_id_char y = false) as Hy.
      { intros y Hy. unfold is_ascii_whitespace in Hy.
        repeat (apply orb_prop in Hy as [Hy|Hy]); apply N.eqb_eq in Hy; subst; cbn; auto. }
      destruct (Hy _ Hw) as (-> & -> & -> & -> & ->). cbn [orb].
      unfold l_while1. cbn [span]. rewrite Hw, orb_true_r. simpl. eauto. }
    destruct HH as (x1 & y1 & HH). rewrite (Hstop _ _ HH) in HinT. contradiction.
Qed.
