(** Invariants of parsing: what text ends up in the tree, and where errors
    point. *)

From Coq Require Import String List NArith Bool Arith Lia.
From Verif Require Import Text Kind Green SpecParser Lexer LexerFacts Winnow Sem Grammar.
Import ListNotations.

(** ** Well-formedness of grammar terms *)

Fixpoint wf_lex (g : grammar) : Prop :=
  match g with
  | GTok _ l => lex_split l
  | GSeq a b | GAlt a b | GTill a b | GIf _ _ a b => wf_lex a /\ wf_lex b
  | GOpt a | GRep a | GRep1 a | GNode _ a | GCtx _ a | GRetry a _ | GRetryOnce a _
  | GMust a => wf_lex a
  | GTriv | GEmpty | GFail | GRParen | GInstr => True
  end.

Lemma word_tok_wf k l : wf_lex (word_tok k l).
Proof. simpl. auto with lexs. Qed.

Ltac solve_wf :=
  repeat match goal with
         | |- True => exact I
         | |- _ /\ _ => split
         | |- wf_lex (if ?b then _ else _) => destruct b
         | |- lex_split _ => solve [auto 20 with lexs]
         end.

Lemma instr_body_wf : wf_lex instr_body.
Proof. cbn; solve_wf. Qed.

Lemma module_wf : wf_lex module.
Proof. cbn; solve_wf. Qed.

Lemma Cov_refl t : Cov t t.
Proof. induction t; constructor; auto. Qed.

Lemma Cov_app a b c d : Cov a b -> Cov c d -> Cov (a ++ c) (b ++ d).
Proof.
  induction 1; intros H2; simpl; [exact H2|constructor; auto|].
  rewrite <- app_assoc. simpl. apply Cov_gap; [assumption|]. apply IHCov. exact H2.
Qed.

Lemma Cov_app_l t a b : Cov a b -> Cov (t ++ a) (t ++ b).
Proof. intros. apply Cov_app; auto using Cov_refl. Qed.

(** ** Failed error tokens *)


(** Text scanned so far inside a string, by scanner mode. *)
Definition Pre (m : smode) (u : text) : Prop :=
  match m with
  | SNorm => StrBody u
  | SEsc => exists p, StrBody p /\ u = p ++ [c_bslash]
  | SU => exists p, StrBody p /\ u = p ++ [c_bslash; c_u]
  | SHex => exists p h, StrBody p /\ Forall (fun c => is_ascii_hexdigit c = true) h
              /\ u = p ++ [c_bslash; c_u; c_lbrace] ++ h
  end.

(** Why the scanner stopped in the given mode. *)
Definition stop_ok (m : smode) (r : text) : Prop :=
  match m with
  | SNorm => False
  | SEsc => r = []
  | SU => forall r', r <> c_lbrace :: r'
  | SHex => forall c r', r = c :: r' -> c <> c_rbrace /\ is_ascii_hexdigit c = false
  end.

Lemma str_scan_pre t : forall m u,
  Pre m u ->
  match str_scan m t with
  | LOk c r => StrBody (u ++ c)
      /\ match r with [] => True | x :: _ => x = c_quote \/ x = c_lf \/ x = c_cr end
  | LErr c r => exists m', Pre m' (u ++ c) /\
      stop_ok m' r
  end.
Proof.
  induction t as [|c t IH]; intros m u Hu.
  - destruct m; simpl.
    + rewrite app_nil_r. auto.
    + exists SEsc. rewrite app_nil_r. split; [exact Hu|reflexivity].
    + exists SU. rewrite app_nil_r. split; [exact Hu|]. simpl. congruence.
    + exists SHex. rewrite app_nil_r. split; [exact Hu|]. simpl. congruence.
  - assert (Step : forall m', Pre m' (u ++ [c]) ->
      match lprefix [c] (str_scan m' t) with
      | LOk c r => StrBody (u ++ c)
          /\ match r with [] => True | x :: _ => x = c_quote \/ x = c_lf \/ x = c_cr end
      | LErr c r => exists m', Pre m' (u ++ c) /\
          stop_ok m' r
      end).
    { intros m' Hm'. specialize (IH m' _ Hm').
      destruct (str_scan m' t) as [c2 r|c2 r]; simpl; rewrite <- app_assoc in IH; exact IH. }
    destruct m; cbn [str_scan].
    + destruct (N.eqb_spec c c_bslash) as [->|Hb].
      { apply Step. exists u. auto. }
      destruct (N.eqb_spec c c_quote) as [->|Hq]; simpl.
      { rewrite app_nil_r. auto. }
      destruct (N.eqb_spec c c_lf) as [->|Hlf]; simpl.
      { rewrite app_nil_r. auto. }
      destruct (N.eqb_spec c c_cr) as [->|Hcr]; simpl.
      { rewrite app_nil_r. auto. }
      apply Step. constructor; auto.
    + destruct Hu as (p & Hp & ->).
      destruct (N.eqb_spec c c_u) as [->|Hne]; apply Step; rewrite <- app_assoc; simpl.
      * exists p. auto.
      * constructor; auto.
    + destruct (N.eqb_spec c c_lbrace) as [->|Hne].
      * destruct Hu as (p & Hp & ->). apply Step. rewrite <- app_assoc. simpl.
        exists p, []. simpl. auto.
      * exists SU. rewrite app_nil_r. split; [exact Hu|]. simpl. congruence.
    + destruct (is_ascii_hexdigit c) eqn:Eh.
      { destruct Hu as (p & h & Hp & Hh & ->). apply Step. exists p, (h ++ [c]).
        split; [exact Hp|]. split; [apply Forall_app; auto|].
        rewrite <- !app_assoc. reflexivity. }
      destruct (N.eqb_spec c c_rbrace) as [->|Hne].
      * destruct Hu as (p & h & Hp & Hh & ->). apply Step. simpl.
        rewrite <- !app_assoc. simpl. now apply (SB_uni p h).
      * exists SHex. rewrite app_nil_r. split; [exact Hu|]. simpl. intros ? ? Heq.
        injection Heq as <- <-. auto.
Qed.

(** A failing [string_impl] that stops in front of an opening parenthesis
    stopped inside an unfinished [\u] escape. *)
Lemma string_l_fail t c r :
  string_l t = LErr c (c_lparen :: r) -> c = [] \/ BadEscape c.
Proof.
  unfold string_l, l_seq. destruct (l_lit [c_quote] t) as [q t1|q t1] eqn:E.
  2:{ intros H. injection H as -> ->. unfold l_lit in E.
      destruct (strip_prefix _ t); [congruence|]. injection E as <- _. auto. }
  pose proof (str_scan_pre t1 SNorm [] SB_nil) as Hs.
  assert (q = [c_quote]) as ->.
  { unfold l_lit in E. destruct (strip_prefix _ t); congruence. }
  destruct (str_scan SNorm t1) as [c1 r1|c1 r1].
  - destruct Hs as [_ Hr]. simpl in Hr. intros H. exfalso.
    assert (Hcl : c_cr <> c_lparen) by discriminate.
    destruct r1 as [|x r1].
    + cbn in H. congruence.
    + destruct Hr as [->|[->| ->]].
      * cbn in H. congruence.
      * cbn in H. congruence.
      * destruct r1 as [|y r1]; [cbn in H; congruence|].
        destruct (N.eqb_spec y c_lf) as [->|Hy]; [cbn in H; congruence|].
        revert H. unfold l_alt, l_peek, line_ending, l_lit, l_eof, l_alt.
        cbn [strip_prefix]. change (N.eqb c_quote c_cr) with false.
        change (N.eqb c_lf c_cr) with false. change (N.eqb c_cr c_cr) with true.
        cbv iota. destruct (N.eqb_spec c_lf y); [congruence|]. cbn. congruence.
  - intros H. simpl in H. injection H as <- ->. right.
    destruct Hs as (m' & Hm & Hcase). simpl in Hm. destruct m'.
    + contradiction.
    + simpl in Hcase. congruence.
    + destruct Hm as (p & Hp & ->). exists p, []. split; [exact Hp|]. split; [constructor|].
      left. reflexivity.
    + destruct Hm as (p & h & Hp & Hh & ->). exists p, h. auto.
Qed.

Lemma error_token_fail t c r :
  error_token false t = LErr c (c_lparen :: r) -> c = [] \/ BadEscape c.
Proof.
  destruct t as [|x t]; [simpl; congruence|]. unfold error_token.
  destruct (N.eqb_spec x c_dollar) as [->|Hd].
  { unfold l_seq, l_lit. cbn [strip_prefix]. rewrite N.eqb_refl. unfold l_while.
    destruct (span is_id_char t). simpl. congruence. }
  destruct (N.eqb x c_lparen || N.eqb x c_rparen).
  { intros H. injection H as <- _. auto. }
  destruct (N.eqb x c_quote); [apply string_l_fail|].
  destruct (is_id_char x); unfold l_while1;
    match goal with |- context [span ?p ?t] => destruct (span p t) as [[|y a] b] end;
    intros H; try congruence; injection H as <- _; auto.
Qed.

(** ** The main invariant *)

Definition Adv (s s1 : st) (c : text) : Prop :=
  rest s = c ++ rest s1 /\ pos s1 = pos s + tlen c.

Definition LogExt (s s1 : st) : Prop := exists l, log s1 = l ++ log s.

Lemma LogExt_refl s s1 : log s1 = log s -> LogExt s s1.
Proof. intros H. exists []. exact H. Qed.
Lemma LogExt_trans a b c : LogExt a b -> LogExt b c -> LogExt a c.
Proof. intros [l1 H1] [l2 H2]. exists (l2 ++ l1). rewrite H2, H1. apply app_assoc. Qed.
Lemma LogExt_reset a b : LogExt a b -> LogExt a (reset a b).
Proof. intros [l H]. exists l. exact H. Qed.
Lemma LogExt_record a b e : LogExt a b -> LogExt a (record b e).
Proof. intros [l H]. exists (err_at_end e (pos b) :: l). simpl. now rewrite H. Qed.
Lemma LogExt_record_neq a b e : LogExt a b -> log (record b e) <> log a.
Proof.
  intros [l H] H2. simpl in H2. rewrite H in H2. apply (f_equal (@length _)) in H2.
  simpl in H2. rewrite app_length in H2. lia.
Qed.
Lemma LogExt_eq_mid a b c : LogExt a b -> LogExt b c -> log c = log a -> log b = log a /\ log c = log b.
Proof.
  intros [l1 H1] [l2 H2] H. rewrite H2, H1, app_assoc in H.
  apply (f_equal (@length _)) in H as Hl. rewrite !app_length in Hl.
  destruct l1; [|simpl in Hl; lia]. destruct l2; [|simpl in Hl; lia].
  simpl in *. split; congruence.
Qed.

Definition Inv (s : st) (r : res) : Prop :=
  match r with
  | ROk o s1 => LogExt s s1
      /\ exists c, Adv s s1 c /\ Cov c (gtexts o) /\ (log s1 = log s -> c = gtexts o)
  | RErr _ s1 => LogExt s s1 /\ exists c, Adv s s1 c
  | _ => False
  end.

Lemma Inv_reset_err s e s1 : Inv s (RErr e s1) -> LogExt s (reset s s1) /\ Inv s (ROk [] (reset s s1)).
Proof.
  intros [H _]. split; [now apply LogExt_reset|]. split; [now apply LogExt_reset|].
  exists []. split; [split; simpl; [reflexivity|lia]|]. split; [constructor|reflexivity].
Qed.

(** Composition. *)
Lemma Inv_seq s o s1 r : Inv s (ROk o s1) -> Inv s1 r -> Inv s (rprep o r).
Proof.
  intros (L1 & c1 & (A1 & P1) & C1 & E1). destruct r as [o' s2|e s2| |]; simpl; try contradiction.
  - intros (L2 & c2 & (A2 & P2) & C2 & E2). split; [eapply LogExt_trans; eauto|].
    exists (c1 ++ c2). split; [split|split].
    + rewrite A1, A2, app_assoc. reflexivity.
    + rewrite P2, P1, tlen_app. lia.
    + rewrite gtexts_app. now apply Cov_app.
    + intros H. destruct (LogExt_eq_mid _ _ _ L1 L2 H) as [H1 H2].
      rewrite gtexts_app, E1, E2; auto.
  - intros (L2 & c2 & A2 & P2). split; [eapply LogExt_trans; eauto|].
    exists (c1 ++ c2). split.
    + rewrite A1, A2, app_assoc. reflexivity.
    + rewrite P2, P1, tlen_app. lia.
Qed.

(** Starting from a state with the same position and a longer log. *)
Lemma Inv_reset_start s s1 r : LogExt s s1 -> Inv (reset s s1) r -> Inv s r.
Proof.
  intros L. assert (L' : LogExt s (reset s s1)) by now apply LogExt_reset.
  destruct r as [o s2|e s2| |]; simpl; try contradiction.
  - intros (L2 & c & (A & P) & C & E). split; [eapply LogExt_trans; eauto|].
    exists c. split; [split; assumption|]. split; [exact C|].
    intros H. destruct (LogExt_eq_mid _ _ _ L' L2 H) as [_ H2]. auto.
  - intros (L2 & c & A & P). split; [eapply LogExt_trans; eauto|]. exists c. split; assumption.
Qed.

Lemma Inv_tok s k c r : rest s = c ++ r -> Inv s (ROk [Tok k c] (advance s c r)).
Proof.
  intros H. split; [apply LogExt_refl; reflexivity|]. exists c.
  unfold gtexts; simpl; rewrite app_nil_r. split; [split; [exact H|reflexivity]|].
  split; [apply Cov_refl|reflexivity].
Qed.

Lemma Inv_tadv dbg s tr r : trivias dbg (rest s) = POk tr r -> Inv s (ROk tr (tadv s tr r)).
Proof.
  intros H. apply trivias_spec in H as (H & _). split; [apply LogExt_refl; reflexivity|].
  exists (gtexts tr). split; [split; [exact H|simpl; now rewrite glens_tlen]|].
  split; [apply Cov_refl|reflexivity].
Qed.

(** Recovery: on success some text was consumed and an error recorded. *)
Lemma Inv_recover dbg ns e ts o s :
  (recover dbg ns e ts = RecTok o s \/ recover dbg ns e ts = RecTerm o s) -> Inv ts (ROk o s).
Proof.
  intros [H|H].
  - apply recover_tok in H as (c & r & _ & H & _ & -> & ->).
    split; [apply LogExt_record, LogExt_refl; reflexivity|].
    exists c. unfold gtexts; simpl; rewrite app_nil_r.
    split; [split; [exact H|reflexivity]|]. split; [apply Cov_refl|reflexivity].
  - apply recover_term in H as (c & r & r2 & Hf & H & Ht & ->).
    apply error_term_spec in Ht as (-> & _ & l' & ->).
    assert (HL : LogExt ts (mk_st r2 (pos ts + tlen c + glens (Tok ERROR (T "(") :: l')) (log ts)))
      by (apply LogExt_refl; reflexivity).
    split; [apply LogExt_record, HL|].
    exists (c ++ gtexts (Tok ERROR (T "(") :: l')).
    split; [split|split].
    + simpl. rewrite H, app_assoc. reflexivity.
    + simpl. rewrite tlen_app, <- glens_tlen. simpl. lia.
    + rewrite gtexts_cons in Hf. cbn [gtext T] in Hf.
      apply error_token_fail in Hf as [->|Hg].
      * apply Cov_refl.
      * rewrite gtexts_cons. cbn [gtext T app]. apply Cov_gap; [exact Hg|]. apply Cov_refl.
    + intros H'. exfalso. eapply LogExt_record_neq; eauto.
Qed.

Lemma RP_inv dbg s0 acc s r :
  RP dbg s0 acc s r -> Inv s0 (ROk acc s) -> Inv s0 r.
Proof.
  induction 1 as [acc s tr r r2 H1 H2|acc s tr r c r2 res H1 H2 H3 H4 IH|acc s tr r c r2 H1 H2 H3];
    intros Hi.
  - assert (Hb : Inv s (ROk (tr ++ [Tok R_PAREN (T ")")]) (advance (tadv s tr r) (T ")") r2))).
    { apply (Inv_seq s tr (tadv s tr r) (ROk [Tok R_PAREN (T ")")] _)); [eapply Inv_tadv; eauto|].
      apply strip_prefix_spec in H2. apply Inv_tok. exact H2. }
    exact (Inv_seq s0 acc s (ROk _ _) Hi Hb).
  - apply IH.
    assert (Hb : Inv s (ROk (tr ++ [Tok ERROR c])
              (record (advance (tadv s tr r) c r2) (rp_err (pos (tadv s tr r)))))).
    { apply (Inv_seq s tr (tadv s tr r) (ROk [Tok ERROR c] _)); [eapply Inv_tadv; eauto|].
      pose proof (error_token_split false r) as Hs. rewrite H3 in Hs.
      destruct (Inv_tok (tadv s tr r) ERROR c r2 Hs) as (L & c' & A & C & E).
      split; [now apply LogExt_record|]. exists c'. split; [exact A|]. split; [exact C|].
      intros H'. exfalso. eapply LogExt_record_neq; eauto. }
    exact (Inv_seq s0 acc s (ROk _ _) Hi Hb).
  - destruct Hi as (L & _).
    assert (L2 : LogExt s0 (record (advance (tadv s tr r) c r2) (rp_err (pos (tadv s tr r))))).
    { apply LogExt_record. eapply LogExt_trans; [exact L|]. apply LogExt_refl. reflexivity. }
    split; [now apply LogExt_reset|]. exists [].
    split; [split; simpl; [reflexivity|lia]|]. split; [constructor|reflexivity].
Qed.

Lemma Inv_here s : Inv s (ROk [] s).
Proof.
  split; [apply LogExt_refl; reflexivity|]. exists [].
  split; [split; simpl; [reflexivity|lia]|]. split; [constructor|reflexivity].
Qed.

Lemma Inv_wrap s o o' s1 : gtexts o' = gtexts o -> Inv s (ROk o s1) -> Inv s (ROk o' s1).
Proof. intros H (L & c & A & C & E). split; [exact L|]. exists c. rewrite H. auto. Qed.

Lemma Inv_err_any s e e' s1 : Inv s (RErr e s1) -> Inv s (RErr e' s1).
Proof. exact (fun H => H). Qed.

Lemma Inv_ok_err s o e s1 : Inv s (ROk o s1) -> Inv s (RErr e s1).
Proof. intros (L & c & A & _). split; eauto. Qed.

Lemma Inv_after_triv dbg s tr r x :
  trivias dbg (rest s) = POk tr r -> Inv (tadv s tr r) x -> Inv s (rprep tr x).
Proof. intros H1 H2. eapply Inv_seq; [eapply Inv_tadv; eauto|exact H2]. Qed.

(** Backtracking to [s] after the log grew: success with nothing consumed. *)
Lemma Inv_backtrack s s1 : LogExt s s1 -> Inv s (ROk [] (reset s s1)).
Proof.
  intros L. split; [now apply LogExt_reset|]. exists [].
  split; [split; simpl; [reflexivity|lia]|]. split; [constructor|reflexivity].
Qed.

Theorem Ev_inv dbg ib g s r : wf_lex ib -> Ev dbg ib g s r -> wf_lex g -> Inv s r.
Proof.
  intros Hib. induction 1; cbn [wf_lex]; intros Hwf; repeat match goal with H : _ /\ _ |- _ => destruct H end.
  - apply Inv_tok. specialize (Hwf (rest s)). now rewrite H in Hwf.
  - specialize (Hwf (rest s)). rewrite H in Hwf. split; [apply LogExt_refl; reflexivity|].
    exists c. split; [exact Hwf|reflexivity].
  - eapply Inv_tadv; eauto.
  - apply Inv_here.
  - eapply Inv_ok_err, Inv_here.
  - now apply IHEv.
  - eapply Inv_seq; eauto.
  - now apply IHEv.
  - eapply Inv_reset_start; [|apply IHEv2; assumption]. apply IHEv1; assumption.
  - now apply IHEv.
  - apply Inv_backtrack. now apply IHEv.
  - apply Inv_backtrack. now apply IHEv.
  - eapply Inv_ok_err. now apply IHEv.
  - eapply Inv_seq; [apply IHEv1; assumption|apply IHEv2; assumption].
  - now apply IHEv.
  - eapply Inv_seq; [apply IHEv1; assumption|apply IHEv2; assumption].
  - now apply IHEv.
  - eapply Inv_reset_start; [|apply IHEv2; assumption]. apply IHEv1; assumption.
  - eapply (Inv_ok_err s o).
    eapply Inv_reset_start; [|apply IHEv2; assumption]. apply IHEv1; assumption.
  - eapply Inv_seq; [|apply IHEv3; split; assumption].
    eapply Inv_reset_start; [|apply IHEv2; assumption]. apply IHEv1; assumption.
  - now apply IHEv.
  - now apply IHEv.
  - eapply Inv_ok_err, Inv_here.
  - eapply Inv_wrap; [|apply IHEv; assumption]. unfold gtexts. simpl. now rewrite app_nil_r.
  - now apply IHEv.
  - now apply IHEv.
  - eapply Inv_err_any. now apply IHEv.
  - eapply (Inv_after_triv dbg s tr r (ROk o s1)); eauto.
  - eapply Inv_seq; [|apply IHEv2; assumption].
    eapply (Inv_after_triv dbg s tr r (ROk o s2)); eauto.
    eapply Inv_reset_start; [apply IHEv1; assumption|]. eapply Inv_recover; eauto.
  - eapply (Inv_after_triv dbg s tr r (ROk o s2)); eauto.
    eapply Inv_reset_start; [apply IHEv; assumption|]. eapply Inv_recover; eauto.
  - apply recover_none in H1 as [Hlog _].
    apply (Inv_ok_err s []). apply Inv_backtrack.
    destruct (IHEv Hwf) as [[l HL] _]. exists l. rewrite Hlog. exact HL.
  - eapply (Inv_after_triv dbg s tr r (ROk o s1)); eauto.
  - eapply (Inv_after_triv dbg s tr r (ROk o s2)); eauto.
    eapply Inv_reset_start; [apply IHEv; assumption|]. eapply Inv_recover; eauto.
  - apply recover_none in H1 as [Hlog _].
    apply (Inv_ok_err s []). apply Inv_backtrack.
    destruct (IHEv Hwf) as [[l HL] _]. exists l. rewrite Hlog. exact HL.
  - now apply IHEv.
  - apply Inv_backtrack. apply LogExt_record. now apply IHEv.
  - eapply RP_inv; eauto. apply Inv_here.
  - apply IHEv. exact Hib.
Qed.
