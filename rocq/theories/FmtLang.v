(** Where white space and comments stand in the children lists of a parse
    without errors.  [FLang] refines [Lang] by a flag on the rest of the
    input: nothing known, no trivia next, or the end. *)

From Coq Require Import String List NArith Bool Arith Lia.
From Verif Require Import Text Kind Green SpecParser Lexer LexerFacts Winnow Grammar Sem Lossless Total
  Bounds Lang TokForm Shape.
Import ListNotations.

(** Every line comment is followed by white space with a line feed. *)
Definition has_lf (t : text) : bool := existsb (N.eqb c_lf) t.
Definition ws_lf (l : list green) : bool :=
  match l with Tok WHITESPACE w :: _ => has_lf w | _ => false end.
Fixpoint run_ok (l : list green) : bool :=
  match l with
  | [] => true
  | g :: r => (match g with Tok LINE_COMMENT _ => ws_lf r | _ => true end) && run_ok r
  end.
(** The same, but a line comment may also be last. *)
Fixpoint run_end (l : list green) : bool :=
  match l with
  | [] => true
  | g :: r => (match g with Tok LINE_COMMENT _ => match r with [] => true | _ => ws_lf r end | _ => true end)
              && run_end r
  end.

Lemma run_ok_end l : run_ok l = true -> run_end l = true.
Proof.
  induction l as [|g r IH]; [reflexivity|]. cbn [run_ok run_end]. intros H.
  apply andb_prop in H as [H1 H2]. rewrite (IH H2), andb_true_r.
  destruct g as [k t|]; [|reflexivity]. destruct k; try reflexivity. destruct r; [reflexivity|exact H1].
Qed.
Lemma ws_lf_app a b : ws_lf a = true -> ws_lf (a ++ b) = true.
Proof. destruct a as [|[k t|] a]; simpl; try discriminate. auto. Qed.
Lemma run_ok_app a b : run_ok a = true -> run_ok b = true -> run_ok (a ++ b) = true.
Proof.
  intros Ha Hb. induction a as [|g r IH]; [exact Hb|]. cbn [run_ok app] in *.
  apply andb_prop in Ha as [H1 H2]. rewrite (IH H2), andb_true_r.
  destruct g as [k t|]; [|reflexivity]. destruct k; try reflexivity. now apply ws_lf_app.
Qed.
Lemma run_end_app a b : run_ok a = true -> run_end b = true -> run_end (a ++ b) = true.
Proof.
  intros Ha Hb. induction a as [|g r IH]; [exact Hb|]. cbn [run_ok run_end app] in *.
  apply andb_prop in Ha as [H1 H2]. rewrite (IH H2), andb_true_r.
  destruct g as [k t|]; [|reflexivity]. destruct k; try reflexivity.
  destruct (r ++ b) eqn:E; [reflexivity|]. rewrite <- E. now apply ws_lf_app.
Qed.
Lemma run_ok_skip a b : run_ok (a ++ b) = true -> run_ok b = true.
Proof.
  induction a as [|g r IH]; [auto|]. cbn [run_ok app]. intros H. apply andb_prop in H as [_ H]. auto.
Qed.
Lemma run_end_skip a b : run_end (a ++ b) = true -> run_end b = true.
Proof.
  induction a as [|g r IH]; [auto|]. cbn [run_end app]. intros H. apply andb_prop in H as [_ H]. auto.
Qed.

(** ** Runs of the lexer *)

Lemma span_all p t a b : span p t = (a, b) -> match b with [] => True | c :: _ => p c = false end.
Proof.
  revert a b. induction t as [|c t IH]; intros a b; cbn [span].
  - intros H. injection H as <- <-. exact I.
  - destruct (p c) eqn:E.
    + destruct (span p t) as [a' b'] eqn:E2. intros H. injection H as <- <-. exact (IH _ _ eq_refl).
    + intros H. injection H as <- <-. exact E.
Qed.

Lemma line_comment_stop t c r : line_comment t = LOk c r ->
  r = [] \/ exists r', r = c_lf :: r' \/ r = c_cr :: c_lf :: r'.
Proof.
  unfold line_comment, l_seq. destruct (l_lit (T ";;") t) as [a1 r1|a1 r1]; [|discriminate].
  unfold till_line_ending.
  destruct (span (fun c0 => negb (N.eqb c0 c_cr || N.eqb c0 c_lf)) r1) as [a b] eqn:E.
  apply span_all in E. destruct b as [|x b].
  - cbn [starts_with andb]. intros H. injection H as _ <-. now left.
  - apply negb_false_iff, orb_prop in E. cbn [starts_with].
    destruct E as [E|E]; apply N.eqb_eq in E; subst x.
    + destruct b as [|y b].
      * cbn. discriminate.
      * destruct (N.eqb_spec y c_lf) as [->|Hn].
        -- cbn. intros H. injection H as _ <-. right. exists b. now right.
        -- assert (E1 : starts_with [c_cr] (c_cr :: y :: b) = true) by reflexivity.
           assert (E2 : starts_with [c_cr; c_lf] (c_cr :: y :: b) = false).
           { unfold starts_with. cbn [strip_prefix].
             replace (N.eqb c_cr c_cr) with true by reflexivity. cbn iota.
             destruct (N.eqb_spec c_lf y); [congruence|reflexivity]. }
           rewrite E1, E2. discriminate.
    + cbn. intros H. injection H as _ <-. right. exists b. now left.
Qed.

Lemma span_keep p t a b : span p t = (a, b) ->
  match t with c :: _ => p c = true -> exists a', a = c :: a' | [] => True end.
Proof.
  destruct t as [|c t]; [trivial|]. cbn [span]. destruct (p c); [|discriminate].
  destruct (span p t). intros H _. injection H as <- <-. eauto.
Qed.

Lemma trivia1_ws_lf dbg r r' g x :
  r = c_lf :: r' \/ r = c_cr :: c_lf :: r' -> trivia1 dbg r = POk g x ->
  exists w, g = Tok WHITESPACE w /\ has_lf w = true.
Proof.
  intros Hr. unfold trivia1, ws, l_while1.
  destruct (span is_multispace r) as [a b] eqn:E.
  assert (Ha : has_lf a = true).
  { destruct Hr as [->| ->]; cbn [span] in E;
      change (is_multispace c_lf) with true in E; try change (is_multispace c_cr) with true in E;
      cbn iota in E; destruct (span is_multispace r'); injection E as <- <-; reflexivity. }
  destruct a as [|c a]; [discriminate|]. intros H. injection H as <- <-. eauto.
Qed.

Lemma trivias_loop_run dbg n t l r :
  trivias_loop dbg n t = POk l r -> run_end l = true /\ (r = [] \/ run_ok l = true).
Proof.
  revert t l r. induction n as [|n IH]; intros t l r; cbn [trivias_loop]; [congruence|].
  destruct (trivia1 dbg t) as [g r1| | |] eqn:E; try congruence.
  - destruct (trivias_loop dbg n r1) as [l2 r2| | |] eqn:E2; try congruence.
    intros H. injection H as <- <-. pose proof (IH _ _ _ E2) as [A B].
    cbn [run_end run_ok]. rewrite A.
    assert (HC : forall k x, g = Tok k x -> k = LINE_COMMENT -> (l2 = [] /\ r2 = []) \/ ws_lf l2 = true).
    { intros k x -> ->. unfold trivia1 in E. destruct (ws t); [discriminate|].
      destruct (line_comment t) as [c2 r2'|] eqn:El;
        [|destruct (block_comment dbg t); discriminate].
      injection E as <- ->. apply line_comment_stop in El as [->|(r' & Hr)].
      - left. destruct n; cbn in E2; [discriminate|]. injection E2 as <- <-. auto.
      - right. destruct n; cbn [trivias_loop] in E2; [discriminate|].
        destruct (trivia1 dbg r1) as [g1 x1| | |] eqn:E1; try discriminate.
        + destruct (trivias_loop dbg n x1); try discriminate. injection E2 as <- <-.
          destruct (trivia1_ws_lf _ _ _ _ _ Hr E1) as (w & -> & Hw). exact Hw.
        + exfalso. unfold trivia1, ws, l_while1 in E1.
          destruct Hr as [->| ->]; cbn [span] in E1;
            change (is_multispace c_lf) with true in E1; try change (is_multispace c_cr) with true in E1;
            cbn iota in E1; destruct (span is_multispace r'); discriminate. }
    destruct g as [k x|k cs].
    + destruct k; try (split; [reflexivity|destruct B; auto]).
      destruct (HC _ _ eq_refl eq_refl) as [[-> ->]|Hw]; [auto|]. rewrite Hw.
      split; [destruct l2; reflexivity|]. destruct B as [->|B]; [auto|right; exact B].
    + split; [reflexivity|]. destruct B; auto.
  - intros H. injection H as <- <-. split; [reflexivity|now right].
Qed.

Lemma trivias_run dbg t l r :
  trivias dbg t = POk l r -> run_end l = true /\ (r = [] \/ run_ok l = true).
Proof. apply trivias_loop_run. Qed.

Lemma trivias_clean dbg t l r : trivia1 dbg t = PErr -> trivias dbg t = POk l r -> l = [] /\ r = t.
Proof.
  unfold trivias. cbn [trivias_loop]. intros ->. intros H. injection H as <- <-. auto.
Qed.

(** ** Flags *)

Inductive flag := FAny | FClean | FEnd.

Definition Fl (dbg : bool) (f : flag) (t : text) : Prop :=
  match f with FAny => True | FClean => trivia1 dbg t = PErr | FEnd => t = [] end.

(** A run of trivia from flag to flag. *)
Definition TRun (f : flag) (tr : list green) (f' : flag) : Prop :=
  Forall is_trivia_tok tr /\ (f <> FAny -> tr = []) /\ f' <> FAny /\ (f' = FEnd \/ run_ok tr = true)
  /\ (f = FEnd -> f' = FEnd).

Lemma trivias_trun dbg f t tr r :
  Fl dbg f t -> trivias dbg t = POk tr r -> exists f', Fl dbg f' r /\ TRun f tr f'.
Proof.
  intros Hf H. pose proof (trivias_spec _ _ _ _ H) as (_ & Ht & Hr).
  pose proof (trivias_run _ _ _ _ H) as (_ & He).
  assert (Hn : f <> FAny -> tr = [] /\ r = t).
  { intros Hn. apply (trivias_clean dbg); [|exact H].
    destruct f; [congruence|exact Hf|]. cbn in Hf. subst t. reflexivity. }
  destruct r as [|c r].
  - exists FEnd. split; [reflexivity|]. repeat split; auto; try congruence. intros Hx. now apply Hn.
  - exists FClean. split; [exact Hr|]. repeat split; auto; try congruence.
    + intros Hx. now apply Hn.
    + destruct He; [discriminate|auto].
    + intros ->. destruct (Hn ltac:(discriminate)) as [_ Hx]. cbn in Hf. subst t. discriminate.
Qed.

Section FLang.
  Variable ib : grammar.

  Inductive FLang : flag -> grammar -> list green -> flag -> Prop :=
  | FTok f k (l : lex) t c r : f <> FEnd -> l t = LOk c r -> FLang f (GTok k l) [Tok k c] FAny
  | FTriv f tr f' : TRun f tr f' -> FLang f GTriv tr f'
  | FEmpty f : FLang f GEmpty [] f
  | FSeq f a b o1 f1 o2 f2 : FLang f a o1 f1 -> FLang f1 b o2 f2 -> FLang f (GSeq a b) (o1 ++ o2) f2
  | FAlt1 f a b o f1 : FLang f a o f1 -> FLang f (GAlt a b) o f1
  | FAlt2 f a b o f1 : FLang f b o f1 -> FLang f (GAlt a b) o f1
  | FOpt1 f a o f1 : FLang f a o f1 -> FLang f (GOpt a) o f1
  | FOpt0 f a : FLang f (GOpt a) [] f
  | FRep0 f a : FLang f (GRep a) [] f
  | FRepS f a o1 f1 o2 f2 : FLang f a o1 f1 -> FLang f1 (GRep a) o2 f2 -> FLang f (GRep a) (o1 ++ o2) f2
  | FRep1 f a o1 f1 o2 f2 : FLang f a o1 f1 -> FLang f1 (GRep a) o2 f2 -> FLang f (GRep1 a) (o1 ++ o2) f2
  | FTill0 f a g o f1 : FLang f g o f1 -> FLang f (GTill a g) o f1
  | FTillS f a g o1 f1 o2 f2 :
      FLang f a o1 f1 -> FLang f1 (GTill a g) o2 f2 -> FLang f (GTill a g) (o1 ++ o2) f2
  | FIf1 f l p a b o f1 : FLang f a o f1 -> FLang f (GIf l p a b) o f1
  | FIf2 f l p a b o f1 : FLang f b o f1 -> FLang f (GIf l p a b) o f1
  | FNode f k a o f1 : FLang f a o f1 -> FLang f (GNode k a) [Node k o] f1
  | FCtx f m a o f1 : FLang f a o f1 -> FLang f (GCtx m a) o f1
  | FRetry f a ns tr f1 o f2 : TRun f tr f1 -> FLang f1 a o f2 -> FLang f (GRetry a ns) (tr ++ o) f2
  | FOnce f a ns tr f1 o f2 : TRun f tr f1 -> FLang f1 a o f2 -> FLang f (GRetryOnce a ns) (tr ++ o) f2
  | FMust1 f a o f1 : FLang f a o f1 -> FLang f (GMust a) o f1
  | FRParen f tr f1 : TRun f tr f1 -> f1 <> FEnd -> FLang f GRParen (tr ++ [Tok R_PAREN (T ")")]) FAny
  | FInstr f o f1 : FLang f ib o f1 -> FLang f GInstr o f1.
End FLang.

Lemma RP_flang ib dbg s0 acc s r f : RP dbg s0 acc s r ->
  LogExt s0 s -> Fl dbg f (rest s) -> (acc = [] /\ s = s0 \/ log s <> log s0) ->
  match r with
  | ROk o s1 => log s1 = log s0 -> exists f', Fl dbg f' (rest s1) /\ FLang ib f GRParen o f'
  | _ => True
  end.
Proof.
  induction 1 as [acc s tr r r2 H1 H2|acc s tr r c r2 res H1 H2 H3 H4 IH|acc s tr r c r2 H1 H2 H3];
    intros Hx Hf Hacc.
  - intros Hl. destruct Hacc as [[-> ->]|Hacc]; [|exfalso; exact (Hacc Hl)].
    destruct (trivias_trun _ _ _ _ _ Hf H1) as (f1 & Hf1 & Ht).
    exists FAny. split; [exact I|]. cbn [app]. eapply FRParen; [exact Ht|].
    intros ->. cbn in Hf1. subst r. discriminate.
  - assert (Hx2 : LogExt s0 (record (advance (tadv s tr r) c r2) (rp_err (pos (tadv s tr r))))).
    { apply LogExt_record. eapply LogExt_trans; [exact Hx|apply LogExt_refl; reflexivity]. }
    assert (Hne : log (record (advance (tadv s tr r) c r2) (rp_err (pos (tadv s tr r)))) <> log s0).
    { apply LogExt_record_neq. eapply LogExt_trans; [exact Hx|apply LogExt_refl; reflexivity]. }
    clear IH. destruct res as [o s1| | |]; try exact I. intros Hl. exfalso.
    assert (Hg : forall acc s r, RP dbg s0 acc s r -> LogExt s0 s -> log s <> log s0 ->
       match r with ROk _ s1 => log s1 <> log s0 | _ => True end).
    { clear. induction 1 as [acc s tr r r2 H1 H2|acc s tr r c r2 res H1 H2 H3 H4 IH|acc s tr r c r2 H1 H2 H3];
        intros L N.
      - exact N.
      - apply IH.
        + apply LogExt_record. eapply LogExt_trans; [exact L|apply LogExt_refl; reflexivity].
        + apply LogExt_record_neq. eapply LogExt_trans; [exact L|apply LogExt_refl; reflexivity].
      - destruct L as (l & L). simpl. rewrite L. intros E.
        apply (f_equal (@length _)) in E. simpl in E. rewrite app_length in E. lia. }
    exact (Hg _ _ _ H4 Hx2 Hne Hl).
  - intros Hl. exfalso. simpl in Hl. destruct Hx as (l & L). rewrite L in Hl.
    apply (f_equal (@length _)) in Hl. simpl in Hl. rewrite app_length in Hl. lia.
Qed.

Theorem Ev_flang dbg ib g s r :
  wf_lex ib -> wf_tok ib -> Ev dbg ib g s r -> wf_lex g -> wf_tok g ->
  match r with
  | ROk o s1 => log s1 = log s -> forall f, Fl dbg f (rest s) ->
      exists f', Fl dbg f' (rest s1) /\ FLang ib f g o f'
  | _ => True
  end.
Proof.
  intros Hib Htb.
  assert (LX : forall g s r, Ev dbg ib g s r -> wf_lex g ->
     match r with ROk _ s1 | RErr _ s1 => LogExt s s1 | _ => True end).
  { intros g0 s0 r0 He Hw. pose proof (Ev_inv _ _ _ _ _ Hib He Hw) as Hi.
    destruct r0; simpl in Hi; auto; apply Hi. }
  induction 1; cbn [wf_lex wf_tok]; intros Hwf Hwt; repeat match goal with H : _ /\ _ |- _ => destruct H end;
    try exact I; try (intros Hs f Hf).
  - exists FAny. split; [exact I|]. eapply FTok; [|eassumption]. intros ->. cbn in Hf.
    pose proof (Hwf (rest s)) as Hsp. rewrite H in Hsp. apply Hwt in H. rewrite Hf in Hsp.
    destruct c; [congruence|discriminate].
  - destruct (trivias_trun _ _ _ _ _ Hf H) as (f1 & Hf1 & Ht). exists f1. split; [exact Hf1|]. now apply FTriv.
  - exists f. split; [exact Hf|constructor].
  - destruct r as [o2 s2| | |]; simpl; try exact I. intros Hs f Hf.
    pose proof (LX _ _ _ H ltac:(assumption)) as L1. pose proof (LX _ _ _ H0 ltac:(assumption)) as L2.
    destruct (LogExt_eq_mid _ _ _ L1 L2 Hs) as [E1 E2].
    destruct (IHEv1 ltac:(assumption) ltac:(assumption) E1 f Hf) as (f1 & Hf1 & HL1).
    destruct (IHEv2 ltac:(assumption) ltac:(assumption) E2 f1 Hf1) as (f2 & Hf2 & HL2).
    exists f2. split; [exact Hf2|]. eapply FSeq; eassumption.
  - destruct (IHEv ltac:(assumption) ltac:(assumption) Hs f Hf) as (f1 & Hf1 & HL1).
    exists f1. split; [exact Hf1|]. now apply FAlt1.
  - destruct r as [o2 s2| | |]; try exact I. intros Hs f Hf.
    pose proof (LX _ _ _ H ltac:(assumption)) as L1. pose proof (LX _ _ _ H0 ltac:(assumption)) as L2.
    destruct (LogExt_eq_mid _ _ _ (LogExt_reset _ _ L1) L2 Hs) as [E1 E2].
    destruct (IHEv2 ltac:(assumption) ltac:(assumption) E2 f Hf) as (f1 & Hf1 & HL1).
    exists f1. split; [exact Hf1|]. now apply FAlt2.
  - destruct (IHEv ltac:(assumption) ltac:(assumption) Hs f Hf) as (f1 & Hf1 & HL1).
    exists f1. split; [exact Hf1|]. now apply FOpt1.
  - exists f. split; [exact Hf|]. apply FOpt0.
  - exists f. split; [exact Hf|]. apply FRep0.
  - destruct r as [o2 s2| | |]; simpl; try exact I. intros Hs f Hf.
    pose proof (LX _ _ _ H ltac:(assumption)) as L1. pose proof (LX (GRep a) _ _ H1 Hwf) as L2.
    destruct (LogExt_eq_mid _ _ _ L1 L2 Hs) as [E1 E2].
    destruct (IHEv1 ltac:(assumption) ltac:(assumption) E1 f Hf) as (f1 & Hf1 & HL1).
    destruct (IHEv2 ltac:(assumption) ltac:(assumption) E2 f1 Hf1) as (f2 & Hf2 & HL2).
    exists f2. split; [exact Hf2|]. eapply FRepS; eassumption.
  - destruct r as [o2 s2| | |]; simpl; try exact I. intros Hs f Hf.
    pose proof (LX _ _ _ H ltac:(assumption)) as L1. pose proof (LX (GRep a) _ _ H0 Hwf) as L2.
    destruct (LogExt_eq_mid _ _ _ L1 L2 Hs) as [E1 E2].
    destruct (IHEv1 ltac:(assumption) ltac:(assumption) E1 f Hf) as (f1 & Hf1 & HL1).
    destruct (IHEv2 ltac:(assumption) ltac:(assumption) E2 f1 Hf1) as (f2 & Hf2 & HL2).
    exists f2. split; [exact Hf2|]. eapply FRep1; eassumption.
  - intros Hs f0 Hf. destruct (IHEv ltac:(assumption) ltac:(assumption) Hs f0 Hf) as (f1 & Hf1 & HL1).
    exists f1. split; [exact Hf1|]. now apply FTill0.
  - destruct r as [o2 s3| | |]; simpl; try exact I. intros Hs f0 Hf.
    pose proof (LX _ _ _ H ltac:(assumption)) as L1. pose proof (LX _ _ _ H0 ltac:(assumption)) as L2.
    pose proof (LX (GTill f g) _ _ H2 ltac:(split; assumption)) as L3. simpl in L1, L2, L3.
    destruct (LogExt_eq_mid _ _ _ (LogExt_trans _ _ _ (LogExt_reset _ _ L1) L2) L3 Hs) as [Ha Hb].
    destruct (LogExt_eq_mid _ _ _ (LogExt_reset _ _ L1) L2 Ha) as [Hc Hd].
    destruct (IHEv2 ltac:(assumption) ltac:(assumption) Hd f0 Hf) as (f1 & Hf1 & HL1).
    destruct (IHEv3 ltac:(split; assumption) ltac:(split; assumption) Hb f1 Hf1) as (f2 & Hf2 & HL2).
    exists f2. split; [exact Hf2|]. eapply FTillS; eassumption.
  - destruct r; try exact I. intros Hs f Hf.
    destruct (IHEv ltac:(assumption) ltac:(assumption) Hs f Hf) as (f1 & Hf1 & HL1).
    exists f1. split; [exact Hf1|]. now apply FIf1.
  - destruct r; try exact I. intros Hs f Hf.
    destruct (IHEv ltac:(assumption) ltac:(assumption) Hs f Hf) as (f1 & Hf1 & HL1).
    exists f1. split; [exact Hf1|]. now apply FIf2.
  - destruct (IHEv ltac:(assumption) ltac:(assumption) Hs f Hf) as (f1 & Hf1 & HL1).
    exists f1. split; [exact Hf1|]. now apply FNode.
  - destruct (IHEv ltac:(assumption) ltac:(assumption) Hs f Hf) as (f1 & Hf1 & HL1).
    exists f1. split; [exact Hf1|]. now apply FCtx.
  - destruct (trivias_trun _ _ _ _ _ Hf H) as (f1 & Hf1 & Ht).
    destruct (IHEv ltac:(assumption) ltac:(assumption) Hs f1 Hf1) as (f2 & Hf2 & HL2).
    exists f2. split; [exact Hf2|]. eapply FRetry; eassumption.
  - destruct x as [o2 s3| | |]; simpl; try exact I. intros Hs. exfalso.
    pose proof (LX _ _ _ H0 ltac:(assumption)) as L1.
    pose proof (LX (GRetry a ns) _ _ H2 Hwf) as L3. simpl in L1, L3.
    apply (or_introl (B := recover dbg ns e (reset (tadv s tr r) s1) = RecTerm o s2)) in H1.
    apply recover_junk in H1 as (Hj & L2 & Hne). apply Hne.
    assert (L1' : LogExt s (reset (tadv s tr r) s1)) by exact L1.
    destruct (LogExt_eq_mid _ _ _ (LogExt_trans _ _ _ L1' L2) L3 Hs) as [Ha _].
    now destruct (LogExt_eq_mid _ _ _ L1' L2 Ha).
  - exfalso. pose proof (LX _ _ _ H0 ltac:(assumption)) as L1. simpl in L1.
    apply (or_intror (A := recover dbg ns e (reset (tadv s tr r) s1) = RecTok o s2)) in H1.
    apply recover_junk in H1 as (Hj & L2 & Hne). apply Hne.
    assert (L1' : LogExt s (reset (tadv s tr r) s1)) by exact L1.
    now destruct (LogExt_eq_mid _ _ _ L1' L2 Hs).
  - destruct (trivias_trun _ _ _ _ _ Hf H) as (f1 & Hf1 & Ht).
    destruct (IHEv ltac:(assumption) ltac:(assumption) Hs f1 Hf1) as (f2 & Hf2 & HL2).
    exists f2. split; [exact Hf2|]. eapply FOnce; eassumption.
  - exfalso. pose proof (LX _ _ _ H0 ltac:(assumption)) as L1. simpl in L1.
    apply recover_junk in H1 as (Hj & L2 & Hne). apply Hne.
    assert (L1' : LogExt s (reset (tadv s tr r) s1)) by exact L1.
    now destruct (LogExt_eq_mid _ _ _ L1' L2 Hs).
  - destruct (IHEv ltac:(assumption) ltac:(assumption) Hs f Hf) as (f1 & Hf1 & HL1).
    exists f1. split; [exact Hf1|]. now apply FMust1.
  - exfalso. pose proof (LX _ _ _ H ltac:(assumption)) as L1. simpl in L1.
    exact (LogExt_record_neq _ _ e L1 Hs).
  - destruct r as [o s1| | |]; try exact I. intros Hs f Hf.
    exact (RP_flang ib _ _ _ _ _ f H (LogExt_refl _ _ eq_refl) Hf (or_introl (conj eq_refl eq_refl)) Hs).
  - destruct r as [o s1| | |]; try exact I. intros Hs f Hf.
    destruct (IHEv Hib Htb Hs f Hf) as (f1 & Hf1 & HL1).
    exists f1. split; [exact Hf1|]. now apply FInstr.
Qed.

(** ** Static analyses *)

Definition triv_tok (g : green) : bool :=
  match g with Tok k _ => is_trivia_kind k | Node _ _ => false end.
Definition nolead_l (o : list green) : Prop := match o with g :: _ => triv_tok g = false | [] => True end.
Definition notrail_l (o : list green) : Prop := nolead_l (rev o).

Lemma nolead_app a b : nolead_l a -> (a = [] -> nolead_l b) -> nolead_l (a ++ b).
Proof. destruct a; simpl; auto. Qed.
Lemma notrail_app a b : notrail_l b -> (b = [] -> notrail_l a) -> notrail_l (a ++ b).
Proof.
  unfold notrail_l. rewrite rev_app_distr. intros Hb Ha. apply nolead_app; [exact Hb|].
  intros E. apply Ha. destruct b; [reflexivity|]. simpl in E. destruct (rev b); discriminate.
Qed.

Fixpoint nonnull (g : grammar) : bool :=
  match g with
  | GTok _ _ | GNode _ _ | GRParen | GInstr | GFail => true
  | GTriv | GEmpty | GOpt _ | GRep _ => false
  | GSeq a b => nonnull a || nonnull b
  | GAlt a b | GIf _ _ a b => nonnull a && nonnull b
  | GTill _ b => nonnull b
  | GRep1 a | GCtx _ a | GRetry a _ | GRetryOnce a _ | GMust a => nonnull a
  end.

(** Is the rest free of leading trivia after [g], if [c] says it was before? *)
Fixpoint cl (c : bool) (g : grammar) : bool :=
  match g with
  | GTok _ _ | GRParen | GInstr => false
  | GTriv | GFail => true
  | GEmpty => c
  | GSeq a b => cl (cl c a) b
  | GAlt a b | GIf _ _ a b => cl c a && cl c b
  | GOpt a | GRep a => c && cl c a
  | GRep1 a => let c1 := cl c a in c1 && cl c1 a
  | GTill a b => cl (c && cl c a) b
  | GNode _ a | GCtx _ a | GMust a => cl c a
  | GRetry a _ | GRetryOnce a _ => cl true a
  end.

Fixpoint nolead (c : bool) (g : grammar) : bool :=
  match g with
  | GTok k _ => negb (is_trivia_kind k)
  | GTriv | GRParen => c
  | GEmpty | GFail | GNode _ _ | GInstr => true
  | GSeq a b => nolead c a && (nonnull a || nolead (cl c a) b)
  | GAlt a b | GIf _ _ a b => nolead c a && nolead c b
  | GOpt a => nolead c a
  | GRep a => nolead (c && cl c a) a
  | GRep1 a => let c1 := cl c a in nolead c a && (nonnull a || nolead (c1 && cl c1 a) a)
  | GTill a b => let c' := c && cl c a in nolead c' a && nolead c' b
  | GCtx _ a | GMust a => nolead c a
  | GRetry a _ | GRetryOnce a _ => c && nolead true a
  end.

Fixpoint notrail (g : grammar) : bool :=
  match g with
  | GTok k _ => negb (is_trivia_kind k)
  | GTriv => false
  | GEmpty | GFail | GNode _ _ | GInstr | GRParen => true
  | GSeq a b => notrail b && (nonnull b || notrail a)
  | GAlt a b | GIf _ _ a b | GTill a b => notrail a && notrail b
  | GOpt a | GRep a | GRep1 a | GCtx _ a | GMust a => notrail a
  | GRetry a _ | GRetryOnce a _ => nonnull a && notrail a
  end.

(** Every node of kind TYPE_USE starts where no trivia is next. *)
Fixpoint tuc (c : bool) (g : grammar) : bool :=
  match g with
  | GNode k a => (negb (kind_eqb k TYPE_USE) || c) && tuc c a
  | GTok _ _ | GTriv | GEmpty | GFail | GRParen | GInstr => true
  | GSeq a b => tuc c a && tuc (cl c a) b
  | GAlt a b | GIf _ _ a b => tuc c a && tuc c b
  | GOpt a => tuc c a
  | GRep a => tuc (c && cl c a) a
  | GRep1 a => let c1 := cl c a in tuc c a && tuc (c1 && cl c1 a) a
  | GTill a b => let c' := c && cl c a in tuc c' a && tuc c' b
  | GCtx _ a | GMust a => tuc c a
  | GRetry a _ | GRetryOnce a _ => tuc true a
  end.

Fixpoint toks_sig (g : grammar) : bool :=
  match g with
  | GTok k _ => negb (is_trivia_kind k)
  | GTriv | GEmpty | GFail | GRParen | GInstr => true
  | GSeq a b | GAlt a b | GIf _ _ a b | GTill a b => toks_sig a && toks_sig b
  | GOpt a | GRep a | GRep1 a | GNode _ a | GCtx _ a | GMust a | GRetry a _ | GRetryOnce a _ => toks_sig a
  end.

Definition Fc (c : bool) (f : flag) : Prop := c = true -> f <> FAny.
Lemma Fc_and c d f : Fc c f -> Fc (c && d) f.
Proof. intros H E. apply andb_prop in E as [E _]. auto. Qed.
Lemma Fc_false f : Fc false f.
Proof. discriminate. Qed.

Lemma TRun_clean f tr f1 c : TRun f tr f1 -> Fc c f1.
Proof. intros (_ & _ & H & _) _. exact H. Qed.
Lemma TRun_none f tr f1 c : TRun f tr f1 -> Fc c f -> c = true -> tr = [].
Proof. intros (_ & H & _) Hc Hx. auto. Qed.

Ltac sp H := apply andb_prop in H as [? ?].

Section Analyses.
  Variable ib : grammar.

  Lemma FLang_nonnull (Hib : nonnull ib = true) f g o f1 :
    FLang ib f g o f1 -> nonnull g = true -> o <> [].
  Proof.
    induction 1; cbn [nonnull]; intros Hn; try discriminate; auto; try (intros E; apply app_eq_nil in E as [E1 E2]).
    - apply orb_prop in Hn as [Hn|Hn]; [now apply IHFLang1|now apply IHFLang2].
    - sp Hn. auto.
    - sp Hn. auto.
    - now apply IHFLang1.
    - now apply IHFLang2.
    - sp Hn. auto.
    - sp Hn. auto.
    - now apply IHFLang.
    - now apply IHFLang.
    - discriminate.
  Qed.

  Lemma FLang_cl f g o f1 c : FLang ib f g o f1 -> Fc c f -> Fc (cl c g) f1.
  Proof.
    intros H. revert c. induction H; cbn [cl]; intros c0 Hc; auto using Fc_false.
    - eapply TRun_clean; eauto.
    - intros E. sp E. eapply IHFLang; eauto.
    - intros E. sp E. eapply IHFLang; eauto.
    - intros E. sp E. eapply IHFLang; eauto.
    - now apply Fc_and.
    - now apply Fc_and.
    - intros E. pose proof E as E'. sp E. destruct c0; [|discriminate].
      pose proof (IHFLang1 true Hc) as K1. pose proof (IHFLang2 true) as K2. cbn [cl] in K2.
      apply K2; [|exact E'].  intros _. apply K1. assumption.
    - intros E. pose proof E as E'. sp E.
      pose proof (IHFLang1 c0 Hc) as H1'. rewrite H1 in *. pose proof (IHFLang2 true H1') as H3. cbn [cl] in H3.
      apply H3. cbn [andb]. assumption.
    - apply IHFLang. now apply Fc_and.
    - cbn [cl] in IHFLang2. destruct (c0 && cl c0 a) eqn:E.
      + sp E. subst c0. pose proof (IHFLang1 true Hc) as H3. rewrite H2 in H3.
        pose proof (IHFLang2 true H3) as H4. rewrite H2 in H4. exact H4.
      + pose proof (IHFLang2 false (Fc_false _)) as H4. exact H4.
    - intros E. sp E. eapply IHFLang; eauto.
    - intros E. sp E. eapply IHFLang; eauto.
    - apply IHFLang. eapply TRun_clean; eauto.
    - apply IHFLang. eapply TRun_clean; eauto.
  Qed.

  Lemma FLang_nolead (Hib : nonnull ib = true) (Hnl : nolead false ib = true) f g o f1 c :
    FLang ib f g o f1 -> Fc c f -> nolead c g = true -> nolead_l o.
  Proof.
    intros H. revert c. induction H; cbn [nolead]; intros c0 Hc Hn; try exact I.
    - apply negb_true_iff in Hn. exact Hn.
    - rewrite (TRun_none _ _ _ _ H Hc Hn). exact I.
    - sp Hn. apply nolead_app; [eauto|]. intros ->. apply orb_prop in H2 as [H2|H2].
      + apply (FLang_nonnull Hib _ _ _ _ H) in H2. congruence.
      + eapply IHFLang2; [|exact H2]. eapply FLang_cl; eauto.
    - sp Hn. eauto.
    - sp Hn. eauto.
    - eauto.
    - assert (Hc1 : Fc (c0 && cl c0 a) f1).
      { intros E. sp E. subst c0. eapply (FLang_cl _ _ _ _ true H); [exact Hc|assumption]. }
      apply nolead_app; [eapply IHFLang1; [|exact Hn]; now apply Fc_and|]. intros _.
      destruct (c0 && cl c0 a) eqn:E.
      + sp E. subst c0. apply (IHFLang2 true); [exact Hc1|]. cbn [nolead andb]. rewrite H2. exact Hn.
      + apply (IHFLang2 false); [apply Fc_false|]. exact Hn.
    - sp Hn. apply nolead_app; [eauto|]. intros ->. apply orb_prop in H2 as [H2|H2].
      + apply (FLang_nonnull Hib _ _ _ _ H) in H2. congruence.
      + apply (IHFLang2 (cl c0 a)); [eapply FLang_cl; eauto|]. exact H2.
    - sp Hn. eapply IHFLang; [|eassumption]. now apply Fc_and.
    - sp Hn.
      assert (Hc1 : Fc (c0 && cl c0 a) f1).
      { intros E. sp E. subst c0. eapply (FLang_cl _ _ _ _ true H); [exact Hc|assumption]. }
      apply nolead_app; [eapply IHFLang1; [|exact H1]; now apply Fc_and|]. intros _.
      destruct (c0 && cl c0 a) eqn:E.
      + sp E. subst c0. apply (IHFLang2 true); [exact Hc1|]. cbn [nolead andb]. rewrite H4.
        now rewrite H1, H2.
      + apply (IHFLang2 false); [apply Fc_false|]. cbn [nolead andb]. now rewrite H1, H2.
    - sp Hn. eauto.
    - sp Hn. eauto.
    - reflexivity.
    - eauto.
    - sp Hn. rewrite (TRun_none _ _ _ _ H Hc H1). eapply IHFLang; [|eassumption]. eapply TRun_clean; eauto.
    - sp Hn. rewrite (TRun_none _ _ _ _ H Hc H1). eapply IHFLang; [|eassumption]. eapply TRun_clean; eauto.
    - eauto.
    - rewrite (TRun_none _ _ _ _ H Hc Hn). reflexivity.
    - eapply IHFLang; [apply Fc_false|exact Hnl].
  Qed.

  Lemma FLang_notrail (Hib : nonnull ib = true) (Hnt : notrail ib = true) f g o f1 :
    FLang ib f g o f1 -> notrail g = true -> notrail_l o.
  Proof.
    induction 1; cbn [notrail]; intros Hn; try discriminate; try exact I; eauto.
    - apply negb_true_iff in Hn. exact Hn.
    - sp Hn. apply notrail_app; [auto|]. intros ->. apply orb_prop in H2 as [H2|H2]; [|auto].
      apply (FLang_nonnull Hib _ _ _ _ H0) in H2. congruence.
    - sp Hn. auto.
    - sp Hn. auto.
    - apply notrail_app; auto.
    - apply notrail_app; auto.
    - sp Hn. auto.
    - pose proof Hn as Hn'. sp Hn. apply notrail_app; auto.
    - sp Hn. auto.
    - sp Hn. auto.
    - reflexivity.
    - sp Hn. apply notrail_app; [auto|]. intros ->. exfalso.
      apply (FLang_nonnull Hib _ _ _ _ H0) in H1. congruence.
    - sp Hn. apply notrail_app; [auto|]. intros ->. exfalso.
      apply (FLang_nonnull Hib _ _ _ _ H0) in H1. congruence.
    - unfold notrail_l. rewrite rev_app_distr. reflexivity.
  Qed.

  (** The end absorbs. *)
  Lemma FLang_end f g o f1 : FLang ib f g o f1 -> f = FEnd -> f1 = FEnd.
  Proof.
    induction 1; intros Hf; auto; try (match goal with H : TRun _ _ _ |- _ => destruct H as (_ & _ & _ & _ & ?) end; auto).
    - congruence.
    - exfalso. auto.
  Qed.

  Lemma FLang_run (Hib : toks_sig ib = true) f g o f1 :
    FLang ib f g o f1 -> toks_sig g = true -> f1 <> FEnd -> run_ok o = true.
  Proof.
    induction 1; cbn [toks_sig]; intros Hs Hf; try reflexivity; auto.
    - apply negb_true_iff in Hs. cbn [run_ok]. destruct k; try reflexivity; discriminate.
    - destruct H as (_ & _ & _ & [H|H] & _); [congruence|exact H].
    - sp Hs. apply run_ok_app; [|auto]. apply IHFLang1; [assumption|].
      intros E. apply Hf. eapply FLang_end; eauto.
    - sp Hs. auto.
    - sp Hs. auto.
    - apply run_ok_app; [|auto]. apply IHFLang1; [assumption|].
      intros E. apply Hf. eapply FLang_end; eauto.
    - apply run_ok_app; [|auto]. apply IHFLang1; [assumption|].
      intros E. apply Hf. eapply FLang_end; eauto.
    - sp Hs. auto.
    - pose proof Hs as Hs'. sp Hs. apply run_ok_app; [|auto]. apply IHFLang1; [assumption|].
      intros E. apply Hf. eapply FLang_end; eauto.
    - sp Hs. auto.
    - sp Hs. auto.
    - apply run_ok_app; [|auto]. destruct H as (_ & _ & _ & [H|H] & _); [|exact H].
      exfalso. apply Hf. eapply FLang_end; eauto.
    - apply run_ok_app; [|auto]. destruct H as (_ & _ & _ & [H|H] & _); [|exact H].
      exfalso. apply Hf. eapply FLang_end; eauto.
    - apply run_ok_app; [|reflexivity]. destruct H as (_ & _ & _ & [H|H] & _); [congruence|exact H].
  Qed.

  (** Nodes inside. *)
  Lemma FLang_rules (Htb : tuc false ib = true) f g o f1 c x k cs :
    FLang ib f g o f1 -> Fc c f -> tuc c g = true -> f1 <> FEnd -> In x o -> Sub x (Node k cs) ->
    exists a fa fb, In (k, a) (node_rules g ++ node_rules ib) /\ FLang ib fa a cs fb
      /\ fb <> FEnd /\ (k = TYPE_USE -> fa <> FAny).
  Proof.
    assert (NT : forall tr x, Forall is_trivia_tok tr -> In x tr -> Sub x (Node k cs) -> False)
      by (intros; eapply trivia_sub; eassumption).
    assert (NF : forall f g o f1, FLang ib f g o f1 -> f1 <> FEnd -> f <> FEnd)
      by (intros ? ? ? ? HL Hn E; apply Hn; eapply FLang_end; eauto).
    assert (W : forall g g', (forall y, In y (node_rules g ++ node_rules ib) -> In y (node_rules g' ++ node_rules ib)) ->
      (exists a fa fb, In (k, a) (node_rules g ++ node_rules ib) /\ FLang ib fa a cs fb
      /\ fb <> FEnd /\ (k = TYPE_USE -> fa <> FAny)) ->
      (exists a fa fb, In (k, a) (node_rules g' ++ node_rules ib) /\ FLang ib fa a cs fb
      /\ fb <> FEnd /\ (k = TYPE_USE -> fa <> FAny))).
    { intros ? ? Hi (a & fa & fb & H & H'). exists a, fa, fb. auto. }
    intros H. revert c x. induction H; cbn [tuc]; intros c0 x Hc Ht Hf Hin Hs;
      try (match type of Hin with In _ (_ ++ _) => apply in_app_or in Hin as [Hin|Hin] end);
      try (match type of Hin with In _ [] => destruct Hin end).
    - destruct Hin as [<-|[]]. inversion Hs.
    - exfalso. destruct H. eauto.
    - sp Ht. apply (W a); [cbn [node_rules]; intros y; rewrite !in_app_iff; tauto|]. eapply IHFLang1; eauto.
    - sp Ht. apply (W b); [cbn [node_rules]; intros y; rewrite !in_app_iff; tauto|].
      eapply IHFLang2; eauto. eapply FLang_cl; eauto.
    - sp Ht. apply (W a); [cbn [node_rules]; intros y; rewrite !in_app_iff; tauto|]. eauto.
    - sp Ht. apply (W b); [cbn [node_rules]; intros y; rewrite !in_app_iff; tauto|]. eauto.
    - exact (IHFLang c0 x Hc Ht Hf Hin Hs).
    - apply (IHFLang1 (c0 && cl c0 a) x); eauto using Fc_and.
    - assert (Hc1 : Fc (c0 && cl c0 a) f1).
      { intros E. sp E. subst c0. eapply (FLang_cl _ _ _ _ true H); [exact Hc|assumption]. }
      destruct (c0 && cl c0 a) eqn:E.
      + sp E. subst c0. apply (IHFLang2 true x); auto. cbn [tuc andb]. rewrite H2. exact Ht.
      + apply (IHFLang2 false x); auto using Fc_false.
    - sp Ht. eapply IHFLang1; eauto.
    - sp Ht. apply (IHFLang2 (cl c0 a) x); auto. eapply FLang_cl; eauto.
    - sp Ht. apply (W g); [cbn [node_rules]; intros y; rewrite !in_app_iff; tauto|].
      apply (IHFLang (c0 && cl c0 a) x); eauto using Fc_and.
    - sp Ht. apply (W a); [cbn [node_rules]; intros y; rewrite !in_app_iff; tauto|].
      apply (IHFLang1 (c0 && cl c0 a) x); eauto using Fc_and.
    - sp Ht.
      assert (Hc1 : Fc (c0 && cl c0 a) f1).
      { intros E. sp E. subst c0. eapply (FLang_cl _ _ _ _ true H); [exact Hc|assumption]. }
      destruct (c0 && cl c0 a) eqn:E.
      + sp E. subst c0. apply (IHFLang2 true x); auto. cbn [tuc andb]. rewrite H4.
        now rewrite H1, H2.
      + apply (IHFLang2 false x); auto using Fc_false. cbn [tuc andb]. now rewrite H1, H2.
    - sp Ht. apply (W a); [cbn [node_rules]; intros y; rewrite !in_app_iff; tauto|]. eauto.
    - sp Ht. apply (W b); [cbn [node_rules]; intros y; rewrite !in_app_iff; tauto|]. eauto.
    - destruct Hin as [<-|[]]. sp Ht. inversion Hs; subst.
      + exists a, f, f1. split; [now left|]. split; [assumption|]. split; [exact Hf|]. intros ->.
        apply Hc. cbn in H0. exact H0.
      + apply (W a); [cbn [node_rules]; intros y Hy; right; exact Hy|].
        eapply (IHFLang c0); eauto.
    - exact (IHFLang c0 x Hc Ht Hf Hin Hs).
    - exfalso. destruct H. eauto.
    - apply (IHFLang true x); auto. eapply TRun_clean; eauto.
    - exfalso. destruct H. eauto.
    - apply (IHFLang true x); auto. eapply TRun_clean; eauto.
    - exact (IHFLang c0 x Hc Ht Hf Hin Hs).
    - exfalso. destruct H. eauto.
    - destruct Hin as [<-|[]]. inversion Hs.
    - apply (W ib); [cbn [node_rules]; intros y; rewrite !in_app_iff; tauto|].
      apply (IHFLang false x); auto using Fc_false.
  Qed.
End Analyses.

(** ** Parse trees *)

Lemma trivia1_lf dbg r r' :
  r = c_lf :: r' \/ r = c_cr :: c_lf :: r' ->
  exists w x, trivia1 dbg r = POk (Tok WHITESPACE w) x /\ has_lf w = true.
Proof.
  intros Hr. destruct (trivia1 dbg r) as [g x| | |] eqn:E.
  - destruct (trivia1_ws_lf _ _ _ _ _ Hr E) as (w & -> & Hw). eauto.
  - exfalso. revert E. unfold trivia1, ws, l_while1.
    destruct Hr as [->| ->]; cbn [span];
      change (is_multispace c_lf) with true; try change (is_multispace c_cr) with true;
      cbn iota; destruct (span is_multispace r'); discriminate.
  - exfalso. revert E. unfold trivia1, ws, l_while1.
    destruct Hr as [->| ->]; cbn [span];
      change (is_multispace c_lf) with true; try change (is_multispace c_cr) with true;
      cbn iota; destruct (span is_multispace r'); discriminate.
  - exfalso. revert E. unfold trivia1, ws, l_while1.
    destruct Hr as [->| ->]; cbn [span];
      change (is_multispace c_lf) with true; try change (is_multispace c_cr) with true;
      cbn iota; destruct (span is_multispace r'); discriminate.
Qed.

Lemma root_loop_ws dbg n s o s2 r' :
  rep_loop dbg (root_item dbg) n s = ROk o s2 ->
  rest s = c_lf :: r' \/ rest s = c_cr :: c_lf :: r' -> ws_lf o = true.
Proof.
  intros H Hr. destruct n as [|n]; [discriminate|]. cbn [rep_loop] in H.
  destruct (trivia1_lf dbg (rest s) r' Hr) as (w & x & E & Hw). unfold root_item at 1 in H. rewrite E in H.
  destruct (Nat.eqb _ _); [unfold assert_fail in H; destruct dbg; discriminate|].
  destruct (rep_loop dbg (root_item dbg) n _); try discriminate. injection H as <- <-. exact Hw.
Qed.

Lemma root_loop_nil dbg n s o s2 :
  rep_loop dbg (root_item dbg) n s = ROk o s2 -> rest s = [] -> o = [].
Proof.
  intros H Hr. destruct n as [|n]; [discriminate|]. cbn [rep_loop] in H.
  unfold root_item at 1 in H. rewrite Hr in H. cbn in H. now injection H as <- <-.
Qed.

Lemma root_loop_run dbg n s o s2 :
  rep_loop dbg (root_item dbg) n s = ROk o s2 -> (forall t, ~ In (Tok ERROR t) o) -> run_end o = true.
Proof.
  revert s o s2. induction n as [|n IH]; intros s o s2; cbn [rep_loop]; [discriminate|].
  destruct (root_item dbg s) as [o1 s1|e s1| |] eqn:E; try discriminate.
  - destruct (Nat.eqb _ _); [unfold assert_fail; destruct dbg; discriminate|].
    destruct (rep_loop dbg (root_item dbg) n s1) as [o' s3| | |] eqn:E3; try discriminate.
    intros H He. injection H as <- <-.
    unfold root_item in E. destruct (trivia1 dbg (rest s)) as [g r| | |] eqn:Et; try discriminate.
    + injection E as <- <-. cbn [app run_end].
      rewrite (IH _ _ _ E3) by (intros t Ht; apply (He t); now right). rewrite andb_true_r.
      destruct g as [k x|]; [|reflexivity]. destruct k; try reflexivity.
      unfold trivia1 in Et. destruct (ws (rest s)); [discriminate|].
      destruct (line_comment (rest s)) as [c2 r2'|] eqn:El;
        [|destruct (block_comment dbg (rest s)); discriminate].
      injection Et as <- ->. apply line_comment_stop in El as [->|(r' & Hr)].
      * rewrite (root_loop_nil _ _ _ _ _ E3 eq_refl). reflexivity.
      * rewrite (root_loop_ws _ _ _ _ _ _ E3 Hr). destruct o'; reflexivity.
    + destruct (error_token true (rest s)); try discriminate. injection E as <- <-.
      exfalso. eapply He. now left.
  - intros H _. now injection H as <- <-.
Qed.

Lemma FLang_any ib f o f1 :
  FLang ib f (GRep (GRetryOnce module [])) o f1 -> f = FAny -> f1 = FAny.
Proof.
  intros H. remember (GRep (GRetryOnce module [])) as g eqn:Eg.
  induction H; try discriminate; auto. injection Eg as ->. intros Hf. apply IHFLang2; [reflexivity|].
  clear - H. inversion H; subst. clear H.
  match goal with H : FLang _ _ module _ _ |- _ => revert H end.
  unfold module. generalize f2. intros fx H.
  repeat match goal with
  | H : FLang _ _ (GSeq _ _) _ _ |- _ => inversion H; subst; clear H
  | H : FLang _ _ (GNode _ _) _ _ |- _ => inversion H; subst; clear H
  | H : FLang _ _ (seqs _) _ _ |- _ => cbn [seqs] in H
  end.
  match goal with H : FLang _ _ GRParen _ ?x |- ?x = _ => inversion H; reflexivity | _ => idtac end.
Qed.

Lemma parse_flang dbg src tree :
  parse dbg src = Parsed tree [] ->
  exists o1 o2 s1 s2 n, tree = Node ROOT (o1 ++ o2)
    /\ FLang instr_body FAny (GRep (GRetryOnce module [])) o1 FAny
    /\ rep_loop dbg (root_item dbg) n s1 = ROk o2 s2.
Proof.
  intros H. apply parse_spec in H as (o1 & s1 & o2 & s2 & -> & Hev & Hl & He).
  pose proof Hl as Hl'.
  apply root_loop_spec in Hl as (o2' & s2' & Heq & I2 & Hlog & Hf & _); [|exact I].
  injection Heq as <- <-.
  assert (Hls : log s1 = log (mk_st src 0 [])).
  { simpl. rewrite <- Hlog. destruct (rest s2).
    + rewrite <- (rev_involutive (log s2)), <- He. reflexivity.
    + simpl in He. apply (f_equal (@length _)) in He. rewrite app_length in He. simpl in He. lia. }
  destruct (Ev_flang _ _ _ _ _ instr_body_wf instr_body_wf_tok Hev module_wf module_wf_tok Hls FAny I)
    as (f' & _ & HL).
  pose proof (FLang_any _ _ _ _ HL eq_refl) as ->.
  exists o1, o2, s1, s2, (S (length (rest s1))). auto.
Qed.

Lemma all_nonnull : nonnull instr_body = true. Proof. vm_compute. reflexivity. Qed.
Lemma all_nolead : nolead false instr_body = true. Proof. vm_compute. reflexivity. Qed.
Lemma all_notrail : notrail instr_body = true. Proof. vm_compute. reflexivity. Qed.
Lemma all_sig : toks_sig instr_body = true. Proof. vm_compute. reflexivity. Qed.
Lemma all_tuc : tuc false instr_body = true. Proof. vm_compute. reflexivity. Qed.
Lemma module_tuc : tuc false (GRep (GRetryOnce module [])) = true. Proof. vm_compute. reflexivity. Qed.

Definition rule_ok (r : kind * grammar) : bool :=
  let '(k, a) := r in
  toks_sig a && notrail a
  && (kind_eqb k BLOCK_IF_THEN || nolead (kind_eqb k TYPE_USE) a).
Lemma rules_ok : forallb rule_ok (node_rules module ++ node_rules instr_body) = true.
Proof. vm_compute. reflexivity. Qed.

Theorem parse_trivia dbg src tree k cs :
  parse dbg src = Parsed tree [] -> Sub tree (Node k cs) -> k <> ROOT ->
  run_ok cs = true /\ (k <> BLOCK_IF_THEN -> nolead_l cs) /\ notrail_l cs.
Proof.
  intros H Hs Hk. apply parse_flang in H as (o1 & o2 & s1 & s2 & n & -> & HL & Hl).
  inversion Hs as [|? ? c ? Hin Hsub]; subst; [congruence|].
  apply in_app_or in Hin as [Hin|Hin].
  - destruct (FLang_rules _ all_tuc _ _ _ _ false _ _ _ HL (Fc_false _) module_tuc
      ltac:(discriminate) Hin Hsub) as (a & fa & fb & Ha & HLa & Hfb & Htu).
    change (node_rules (GRep (GRetryOnce module []))) with (node_rules module) in Ha.
    pose proof rules_ok as R. rewrite forallb_forall in R. specialize (R _ Ha). cbn [rule_ok] in R.
    apply andb_prop in R as [R R3]. apply andb_prop in R as [R1 R2]. split; [|split].
    + exact (FLang_run _ all_sig _ _ _ _ HLa R1 Hfb).
    + intros Hn. apply orb_prop in R3 as [R3|R3]; [apply kind_eqb_eq in R3; contradiction|].
      refine (FLang_nolead _ all_nonnull all_nolead _ _ _ _ _ HLa _ R3).
      intros E. apply kind_eqb_eq in E. auto.
    + exact (FLang_notrail _ all_nonnull all_notrail _ _ _ _ HLa R2).
  - exfalso. apply root_loop_spec in Hl as (o2' & s2' & Heq & _ & _ & Hf & _); [|exact I].
    injection Heq as <- <-. rewrite Forall_forall in Hf. apply Hf in Hin.
    destruct c; [inversion Hsub|destruct Hin as [[]|[]]].
Qed.

Theorem parse_trivia_root dbg src tree cs :
  parse dbg src = Parsed tree [] -> (forall t, ~ In (ERROR, t) (gtokens tree)) -> tree = Node ROOT cs ->
  run_end cs = true.
Proof.
  intros H He E. apply parse_flang in H as (o1 & o2 & s1 & s2 & n & -> & HL & Hl).
  injection E as <-. apply run_end_app.
  - refine (FLang_run _ all_sig _ _ _ _ HL _ _); [vm_compute; reflexivity|discriminate].
  - eapply root_loop_run; eauto. intros t Ht. apply (He t). cbn [gtokens].
    change (In (ERROR, t) (gtokenss (o1 ++ o2))). rewrite gtokenss_app. apply in_or_app. right.
    unfold gtokenss. apply in_concat. exists [(ERROR, t)]. split; [|now left].
    apply in_map_iff. exists (Tok ERROR t). auto.
Qed.
