(** Builds with debug assertions: same result as the release build or a
    panic, and when a panic can happen. *)

From Coq Require Import String List NArith Bool Arith Lia.
From Verif Require Import Text Kind Green SpecParser Lexer LexerFacts Winnow Grammar Sem Lossless Total.
Import ListNotations.

(** ** Same result or panic *)

Lemma bc_loop_dbg n t : bc_loop true n t = PPanic \/ bc_loop true n t = bc_loop false n t.
Proof.
  revert t. induction n as [|n IH]; intros t; cbn [bc_loop]; [auto|].
  destruct (strip_prefix (T ";)") t); [auto|].
  destruct (until_comment_delim t) as [[a t1]|]; [|auto].
  assert (Hskip : forall a : text, match a with
                  | [] => PPanic
                  | _ => match bc_loop true n t1 with
                         | POk c' r' => POk (a ++ c') r' | x => x end
                  end = PPanic \/
                  match a with
                  | [] => PPanic
                  | _ => match bc_loop true n t1 with
                         | POk c' r' => POk (a ++ c') r' | x => x end
                  end = match a with
                  | [] => PErr
                  | _ => match bc_loop false n t1 with
                         | POk c' r' => POk (a ++ c') r' | x => x end
                  end).
  { intros [|x b]; [auto|]. destruct (IH t1) as [->| ->]; auto. }
  destruct (strip_prefix (T "(;") t1) as [t2|]; [|apply Hskip].
  destruct (IH t2) as [->| ->]; [auto|].
  destruct (bc_loop false n t2) as [c r| | |]; auto.
  destruct (IH r) as [->| ->]; auto.
Qed.

Lemma trivia1_dbg t : trivia1 true t = PPanic \/ trivia1 true t = trivia1 false t.
Proof.
  unfold trivia1. destruct (ws t); [auto|]. destruct (line_comment t); [auto|].
  unfold block_comment. destruct (strip_prefix (T "(;") t) as [t1|]; [|auto].
  destruct (bc_loop_dbg (S (length t1)) t1) as [->| ->]; auto.
Qed.

Lemma trivias_dbg t : trivias true t = PPanic \/ trivias true t = trivias false t.
Proof.
  unfold trivias. generalize (S (length t)) as n. intros n. revert t.
  induction n as [|n IH]; intros t; cbn [trivias_loop]; [auto|].
  destruct (trivia1_dbg t) as [->| ->]; [auto|].
  destruct (trivia1 false t) as [g t1| | |]; auto.
  destruct (IH t1) as [->| ->]; auto.
Qed.

Lemma et_loop_dbg n t : et_loop true n t = PPanic \/ et_loop true n t = et_loop false n t.
Proof.
  revert t. induction n as [|n IH]; intros t; cbn [et_loop]; [auto|].
  destruct (trivias_dbg t) as [->| ->]; [auto|].
  destruct (trivias false t) as [tr t1| | |]; auto.
  destruct (strip_prefix (T "(") t1) as [t2|].
  - destruct (IH t2) as [->| ->]; [auto|].
    destruct (et_loop false n t2) as [items t3| | |]; auto.
    destruct (opt_rparen_error t3) as [rp t4]. destruct (IH t4) as [->| ->]; auto.
  - destruct (error_token false t1) as [c r|c r]; [|auto]. destruct (IH r) as [->| ->]; auto.
Qed.

Lemma la_triv_dbg f t : la_triv f true t = APanic \/ la_triv f true t = la_triv f false t.
Proof. unfold la_triv. destruct (trivias_dbg t) as [->| ->]; auto. Qed.

Lemma error_term_dbg ns t : error_term true ns t = PPanic \/ error_term true ns t = error_term false ns t.
Proof.
  unfold error_term.
  match goal with |- context [la_triv ?f true t] => set (F := f) end.
  match goal with |- context [la_triv ?f false t] => set (G := f) end.
  assert (HFG : la_triv F true t = APanic \/ la_triv F true t = la_triv G false t).
  { unfold la_triv at 1 2 3. destruct (trivias_dbg t) as [->| ->]; [auto|].
    destruct (trivias false t) as [tr r| | |]; auto.
    subst F G. cbv beta. destruct (strip_prefix (T "(") r); [|auto]. apply la_triv_dbg. }
  destruct HFG as [->| ->]; [auto|].
  destruct (la_triv G false t); auto.
  unfold error_term_inner. destruct (strip_prefix (T "(") t) as [t1|]; [|auto].
  destruct (et_loop_dbg (S (length t1)) t1) as [->| ->]; auto.
Qed.

Lemma recover_dbg ns e ts :
  recover true ns e ts = RecPanic \/ recover true ns e ts = recover false ns e ts.
Proof.
  unfold recover. destruct (error_token false (rest ts)) as [c r|c r]; [auto|].
  destruct (error_term_dbg ns r) as [->| ->]; auto.
Qed.

Definition look_dbg (l : look) : Prop := forall t, l true t = APanic \/ l true t = l false t.

Fixpoint looks_dbg (g : grammar) : Prop :=
  match g with
  | GIf l _ a b => look_dbg l /\ looks_dbg a /\ looks_dbg b
  | GSeq a b | GAlt a b | GTill a b => looks_dbg a /\ looks_dbg b
  | GOpt a | GRep a | GRep1 a | GNode _ a | GCtx _ a | GRetry a _ | GRetryOnce a _
  | GMust a => looks_dbg a
  | GTok _ _ | GTriv | GEmpty | GFail | GRParen | GInstr => True
  end.

Lemma la_any_dbg : look_dbg la_any. Proof. right. reflexivity. Qed.
Lemma la_triv_any_dbg : look_dbg la_triv_any. Proof. intros t. apply la_triv_dbg. Qed.
Lemma la_paren_word_dbg : look_dbg la_paren_word.
Proof. intros t. unfold la_paren_word. destruct (strip_prefix _ t); [apply la_triv_dbg|auto]. Qed.
Lemma la_opt_paren_word_dbg : look_dbg la_opt_paren_word.
Proof. intros t. unfold la_opt_paren_word. destruct (strip_prefix _ t); [apply la_triv_dbg|auto]. Qed.
Lemma la_lparen_dbg : look_dbg la_lparen. Proof. right. reflexivity. Qed.
Lemma la_block_end_dbg l : look_dbg (la_block_end l). Proof. intros t. apply la_triv_dbg. Qed.

Ltac solve_looks_dbg :=
  repeat match goal with
         | |- True => exact I
         | |- look_dbg _ =>
             solve [ apply la_any_dbg | apply la_triv_any_dbg | apply la_paren_word_dbg
                   | apply la_opt_paren_word_dbg | apply la_lparen_dbg | apply la_block_end_dbg ]
         | |- _ /\ _ => split
         | |- looks_dbg (if ?b then _ else _) => destruct b
         end.
Lemma instr_body_looks : looks_dbg instr_body.
Proof. cbn; solve_looks_dbg. Qed.
Lemma module_looks : looks_dbg module.
Proof. cbn; solve_looks_dbg. Qed.

Section RunDbg.
  Variables selfT selfF : st -> res.
  Hypothesis Hself : forall s, selfT s = RPanic \/ selfT s = selfF s.

  Lemma rep_loop_dbg f g n s :
    (forall s, f s = RPanic \/ f s = g s) ->
    rep_loop true f n s = RPanic \/ rep_loop true f n s = rep_loop false g n s.
  Proof.
    intros Hf. revert s. induction n as [|n IH]; intros s; cbn [rep_loop]; [auto|].
    destruct (Hf s) as [->| ->]; [auto|]. destruct (g s) as [o s1|e s1| |]; auto.
    destruct (Nat.eqb _ _); [simpl; auto|]. destruct (IH s1) as [->| ->]; auto.
  Qed.

  Lemma run_dbg g s : looks_dbg g ->
    run true selfT g s = RPanic \/ run true selfT g s = run false selfF g s.
  Proof.
    revert s. induction g; intros s Hw; cbn [run looks_dbg] in *;
      repeat match goal with H : _ /\ _ |- _ => destruct H end; auto.
    - destruct (trivias_dbg (rest s)) as [->| ->]; auto.
    - destruct (IHg1 s ltac:(assumption)) as [->| ->]; auto.
      destruct (run false selfF g1 s) as [o s1| | |]; auto.
      destruct (IHg2 s1 ltac:(assumption)) as [->| ->]; auto.
    - destruct (IHg1 s ltac:(assumption)) as [->| ->]; auto.
      destruct (run false selfF g1 s) as [o s1| | |]; auto.
    - destruct (IHg s Hw) as [->| ->]; auto.
    - apply rep_loop_dbg. auto.
    - destruct (IHg s Hw) as [->| ->]; auto.
      destruct (run false selfF g s) as [o s1| | |]; auto.
      destruct (rep_loop_dbg (run true selfT g) (run false selfF g) (S (length (rest s1))) s1)
        as [->| ->]; auto.
    - generalize (S (length (rest s))) as n. intros n. revert s.
      induction n as [|n IHn]; intros s; cbn [till_loop]; [auto|].
      destruct (IHg2 s ltac:(assumption)) as [->| ->]; auto.
      destruct (run false selfF g2 s) as [o s1|e s1| |]; auto.
      destruct (IHg1 (reset s s1) ltac:(assumption)) as [->| ->]; auto.
      destruct (run false selfF g1 (reset s s1)) as [o s2| | |]; auto.
      destruct (Nat.eqb _ _); [simpl; auto|]. destruct (IHn s2) as [->| ->]; auto.
    - match goal with H : look_dbg l |- _ => destruct (H (rest s)) as [->| ->] end; auto.
      destruct (l false (rest s)) as [w| | |]; auto. destruct (p w); auto.
    - destruct (IHg s Hw) as [->| ->]; auto.
    - destruct (IHg s Hw) as [->| ->]; auto.
    - generalize (S (length (rest s))) as n. intros n. revert s.
      induction n as [|n IHn]; intros s; cbn [retry_loop]; [auto|].
      destruct (trivias_dbg (rest s)) as [->| ->]; auto.
      destruct (trivias false (rest s)) as [tr r| | |]; auto. cbv zeta.
      match goal with |- context [run true selfT g ?x] => destruct (IHg x Hw) as [->| ->] end; auto.
      destruct (run false selfF g _) as [o s1|e s1| |]; auto.
      match goal with |- context [recover true ?a ?b ?c] => destruct (recover_dbg a b c) as [->| ->] end; auto.
      destruct (recover false _ _ _) as [o s2|o s2|s2| |]; auto.
      destruct (IHn s2) as [->| ->]; auto.
    - unfold retry_once. destruct (trivias_dbg (rest s)) as [->| ->]; auto.
      destruct (trivias false (rest s)) as [tr r| | |]; auto. cbv zeta.
      match goal with |- context [run true selfT g ?x] => destruct (IHg x Hw) as [->| ->] end; auto.
      destruct (run false selfF g _) as [o s1|e s1| |]; auto.
      match goal with |- context [recover true ?a ?b ?c] => destruct (recover_dbg a b c) as [->| ->] end; auto.
    - unfold must. destruct (IHg s Hw) as [->| ->]; auto.
    - enough (He : forall n s0 s acc, rparen_loop true s0 acc n s = RPanic \/
                  rparen_loop true s0 acc n s = rparen_loop false s0 acc n s) by apply He.
      clear s. intros n s0. induction n as [|n IHn]; intros s acc; cbn [rparen_loop]; [auto|].
      destruct (trivias_dbg (rest s)) as [->| ->]; auto.
      destruct (trivias false (rest s)) as [tr r| | |]; auto.
      destruct (strip_prefix (T ")") r); [auto|].
      destruct (error_token false r) as [c r2|c r2]; [|auto].
      destruct (Nat.eqb _ _); [auto|]. apply IHn.
  Qed.
End RunDbg.

Lemma run_instr_dbg n s : run_instr true n s = RPanic \/ run_instr true n s = run_instr false n s.
Proof.
  revert s. induction n as [|n IH]; intros s; cbn [run_instr]; [auto|].
  apply run_dbg; auto using instr_body_looks.
Qed.

Theorem parse_dbg src : parse true src = ParsePanic \/ parse true src = parse false src.
Proof.
  assert (H : forall s, root true s = RPanic \/ root true s = root false s).
  { intros s. unfold root.
    destruct (run_dbg _ _ (run_instr_dbg (S (length (rest s)))) (GRep (GRetryOnce module [])) s module_looks)
      as [->| ->]; auto.
    destruct (run false _ _ s) as [o s1| | |]; auto.
    destruct (rep_loop_dbg (root_item true) (root_item false) (S (length (rest s1))) s1) as [->| ->]; auto.
    intros s2. unfold root_item. destruct (trivia1_dbg (rest s2)) as [->| ->]; auto. }
  unfold parse. destruct (H (mk_st src 0 [])) as [->| ->]; auto.
Qed.

(** ** When a panic can happen *)

(** Two block comment openers. *)
Definition two_openers (t : text) : Prop :=
  exists a b c, t = a ++ T "(;" ++ b ++ T "(;" ++ c.
Definition has_opener (t : text) : Prop := exists a b, t = a ++ T "(;" ++ b.

Lemma two_openers_app a t : two_openers t -> two_openers (a ++ t).
Proof. intros (x & b & c & ->). exists (a ++ x), b, c. now rewrite app_assoc. Qed.
Lemma has_opener_app a t : has_opener t -> has_opener (a ++ t).
Proof. intros (x & b & ->). exists (a ++ x), b. now rewrite app_assoc. Qed.

Lemma bc_loop_panic n t : bc_loop true n t = PPanic -> has_opener t.
Proof.
  revert t. induction n as [|n IH]; intros t; cbn [bc_loop]; [congruence|].
  destruct (strip_prefix (T ";)") t) eqn:E0; [congruence|].
  destruct (until_comment_delim t) as [[a t1]|] eqn:E1; [|congruence].
  apply until_comment_delim_spec in E1 as [-> Hs].
  destruct (strip_prefix (T "(;") t1) as [t2|] eqn:E2.
  { intros _. apply strip_prefix_spec in E2. subst t1. exists a, t2. reflexivity. }
  destruct a as [|x a].
  { intros _. exfalso. rewrite app_nil_l in E0. unfold starts_with in Hs. rewrite E0, E2 in Hs.
    destruct Hs; discriminate. }
  pose proof (IH t1). destruct (bc_loop true n t1); try congruence. intros _.
  apply has_opener_app. auto.
Qed.

Lemma trivia1_panic t : trivia1 true t = PPanic -> two_openers t.
Proof.
  unfold trivia1. destruct (ws t); [congruence|]. destruct (line_comment t); [congruence|].
  unfold block_comment. destruct (strip_prefix (T "(;") t) as [t1|] eqn:E; [|congruence].
  apply strip_prefix_spec in E. subst t.
  pose proof (bc_loop_panic (S (length t1)) t1).
  destruct (bc_loop true (S (length t1)) t1); try congruence. intros _.
  destruct (H eq_refl) as (a & b & ->). exists [], a, b. reflexivity.
Qed.

Lemma trivias_panic t : trivias true t = PPanic -> two_openers t.
Proof.
  unfold trivias. generalize (S (length t)) as n. intros n. revert t.
  induction n as [|n IH]; intros t; cbn [trivias_loop]; [congruence|].
  pose proof (trivia1_panic t).
  destruct (trivia1 true t) as [g t1| | |] eqn:E; try congruence; auto.
  apply trivia1_spec in E as (-> & _). pose proof (IH t1).
  destruct (trivias_loop true n t1); try congruence. intros _. apply two_openers_app. auto.
Qed.

Definition quiet (t : text) : Prop := ~ two_openers t.
Lemma quiet_app a t : quiet (a ++ t) -> quiet t.
Proof. intros H H2. apply H, two_openers_app, H2. Qed.
Lemma quiet_strip p t t1 : strip_prefix p t = Some t1 -> quiet t -> quiet t1.
Proof. intros H Hq. apply strip_prefix_spec in H. subst. eapply quiet_app; eauto. Qed.
Lemma quiet_trivias dbg t tr r : trivias dbg t = POk tr r -> quiet t -> quiet r.
Proof. intros H Hq. apply trivias_spec in H as (-> & _). eapply quiet_app; eauto. Qed.
Lemma quiet_lex l t c r : lex_split l -> quiet t -> l t = LOk c r \/ l t = LErr c r -> quiet r.
Proof.
  intros Hl Hq H. specialize (Hl t). destruct H as [H|H]; rewrite H in Hl; subst; eapply quiet_app; eauto.
Qed.
Lemma trivias_quiet t : quiet t -> trivias true t <> PPanic.
Proof. intros Hq H. apply Hq, trivias_panic, H. Qed.

Lemma et_loop_quiet n t : quiet t -> et_loop true n t <> PPanic.
Proof.
  revert t. induction n as [|n IH]; intros t Hq; cbn [et_loop]; [congruence|].
  pose proof (trivias_quiet t Hq).
  destruct (trivias true t) as [tr t1| | |] eqn:Et; try congruence.
  pose proof (quiet_trivias _ _ _ _ Et Hq) as Hq1.
  destruct (strip_prefix (T "(") t1) as [t2|] eqn:E2.
  - pose proof (quiet_strip _ _ _ E2 Hq1) as Hq2. pose proof (IH t2 Hq2).
    destruct (et_loop true n t2) as [items t3| | |] eqn:E3; try congruence.
    apply et_loop_spec in E3 as (-> & _). apply quiet_app in Hq2.
    destruct (opt_rparen_error t3) as [rp t4] eqn:E4. apply opt_rparen_error_spec in E4 as (-> & _).
    apply quiet_app in Hq2. pose proof (IH t4 Hq2). destruct (et_loop true n t4); congruence.
  - destruct (error_token false t1) as [c r|c r] eqn:E3; [|congruence].
    pose proof (quiet_lex _ _ _ _ (error_token_split false) Hq1 (or_introl E3)) as Hq2.
    pose proof (IH r Hq2). destruct (et_loop true n r); congruence.
Qed.

Lemma la_triv_quiet f t : quiet t -> (forall r, f r <> APanic) -> la_triv f true t <> APanic.
Proof.
  intros Hq Hf. unfold la_triv. pose proof (trivias_quiet t Hq).
  destruct (trivias true t); congruence || apply Hf.
Qed.

Lemma error_term_quiet ns t : quiet t -> error_term true ns t <> PPanic.
Proof.
  intros Hq. unfold error_term.
  match goal with |- context [la_triv ?f true t] => set (G := f) end.
  assert (HG : la_triv G true t <> APanic).
  { unfold la_triv at 1. pose proof (trivias_quiet t Hq).
    destruct (trivias true t) as [tr r| | |] eqn:Et; try congruence.
    pose proof (quiet_trivias _ _ _ _ Et Hq) as Hq1.
    subst G. cbv beta. destruct (strip_prefix (T "(") r) eqn:E; [|congruence].
    apply la_triv_quiet; [eapply quiet_strip; eauto|].
    intros x. destruct (l_verify _ _ x); congruence. }
  destruct (la_triv G true t); try congruence.
  unfold error_term_inner. destruct (strip_prefix (T "(") t) as [t1|] eqn:E; [|congruence].
  pose proof (et_loop_quiet (S (length t1)) t1 (quiet_strip _ _ _ E Hq)).
  destruct (et_loop true (S (length t1)) t1) as [items t3| | |]; try congruence.
  destruct (opt_rparen_error t3); congruence.
Qed.

Lemma recover_quiet ns e ts : quiet (rest ts) -> recover true ns e ts <> RecPanic.
Proof.
  intros Hq. unfold recover. destruct (error_token false (rest ts)) as [c r|c r] eqn:E.
  - destruct (Nat.eqb _ _); congruence.
  - pose proof (error_term_quiet ns r (quiet_lex _ _ _ _ (error_token_split false) Hq (or_intror E))).
    destruct (error_term true ns r); try congruence. destruct (Nat.eqb _ _); congruence.
Qed.

Definition look_quiet (l : look) : Prop := forall t, quiet t -> l true t <> APanic.
Fixpoint looks_quiet (g : grammar) : Prop :=
  match g with
  | GIf l _ a b => look_quiet l /\ looks_quiet a /\ looks_quiet b
  | GSeq a b | GAlt a b | GTill a b => looks_quiet a /\ looks_quiet b
  | GOpt a | GRep a | GRep1 a | GNode _ a | GCtx _ a | GRetry a _ | GRetryOnce a _
  | GMust a => looks_quiet a
  | GTok _ _ | GTriv | GEmpty | GFail | GRParen | GInstr => True
  end.
Lemma la_any_quiet : look_quiet la_any. Proof. intros [|c t] _; discriminate. Qed.
Lemma la_triv_any_quiet : look_quiet la_triv_any.
Proof. intros t Hq. apply la_triv_quiet; auto. intros [|c r]; discriminate. Qed.
Lemma la_paren_word_quiet : look_quiet la_paren_word.
Proof.
  intros t Hq. unfold la_paren_word. destruct (strip_prefix _ t) eqn:E; [|congruence].
  apply la_triv_quiet; [eapply quiet_strip; eauto|apply la_word_not_panic].
Qed.
Lemma la_opt_paren_word_quiet : look_quiet la_opt_paren_word.
Proof.
  intros t Hq. unfold la_opt_paren_word. destruct (strip_prefix _ t) eqn:E; [|apply la_word_not_panic].
  apply la_triv_quiet; [eapply quiet_strip; eauto|apply la_word_not_panic].
Qed.
Lemma la_lparen_quiet : look_quiet la_lparen.
Proof. intros t _. unfold la_lparen. destruct (strip_prefix _ t); congruence. Qed.
Lemma la_block_end_quiet l : look_quiet (la_block_end l).
Proof.
  intros t Hq. apply la_triv_quiet; auto. intros r.
  destruct (l_verify _ _ r); try congruence; destruct (strip_prefix (T ")") r); congruence.
Qed.
Ltac solve_looks_quiet :=
  repeat match goal with
         | |- True => exact I
         | |- look_quiet _ =>
             solve [ apply la_any_quiet | apply la_triv_any_quiet | apply la_paren_word_quiet
                   | apply la_opt_paren_word_quiet | apply la_lparen_quiet | apply la_block_end_quiet ]
         | |- _ /\ _ => split
         | |- looks_quiet (if ?b then _ else _) => destruct b
         end.
Lemma instr_body_quiet : looks_quiet instr_body.
Proof. cbn; solve_looks_quiet. Qed.
Lemma module_quiet : looks_quiet module.
Proof. cbn; solve_looks_quiet. Qed.

Section RunQuiet.
  Variable self : st -> res.
  Let ib := instr_body.
  Hypothesis self_sound : forall s r, self s = r -> proper r -> Ev true ib GInstr s r.
  Hypothesis self_quiet : forall s, quiet (rest s) -> self s <> RPanic.

  Lemma run_rest g s : wf_lex g -> quiet (rest s) ->
    match run true self g s with ROk _ s1 | RErr _ s1 => quiet (rest s1) | _ => True end.
  Proof.
    intros Hw Hq.
    assert (Hi : proper (run true self g s) -> Inv s (run true self g s)).
    { intros Hp. eapply (Ev_inv true ib g); [apply instr_body_wf| |exact Hw].
      exact (run_sound true ib self g self_sound s _ eq_refl Hp). }
    destruct (run true self g s) as [o s1|e s1| |]; auto.
    - destruct (Hi I) as (_ & c & (Ha & _) & _). rewrite Ha in Hq. eapply quiet_app; eauto.
    - destruct (Hi I) as (_ & c & (Ha & _)). rewrite Ha in Hq. eapply quiet_app; eauto.
  Qed.

  Lemma rep_loop_quiet a n s :
    (forall s, quiet (rest s) -> run true self a s <> RPanic) ->
    wf_lex a -> wf_tok a -> consumes a = true -> quiet (rest s) ->
    rep_loop true (run true self a) n s <> RPanic.
  Proof.
    intros Hf Hw Ht Hc. revert s. induction n as [|n IH]; intros s Hq; cbn [rep_loop]; [congruence|].
    pose proof (Hf s Hq). pose proof (run_rest a s Hw Hq) as Hr.
    destruct (run true self a s) as [o s1|e s1| |] eqn:E; try congruence.
    apply run_lt in E; auto.
    destruct (Nat.eqb_spec (length (rest s1)) (length (rest s))); [lia|].
    pose proof (IH s1 Hr). destruct (rep_loop true _ n s1); congruence.
  Qed.

  Lemma run_quiet g s : wf_lex g -> wf_tok g -> loops_ok g = true -> looks_quiet g ->
    quiet (rest s) -> run true self g s <> RPanic.
  Proof.
    revert s. induction g; intros s Hw Ht Hl Hk Hq; cbn [run wf_lex wf_tok loops_ok looks_quiet] in *;
      repeat match goal with H : _ /\ _ |- _ => destruct H end;
      repeat match goal with H : _ && _ = true |- _ => apply andb_prop in H as [? ?] end.
    - destruct (l (rest s)); congruence.
    - pose proof (trivias_quiet (rest s) Hq). destruct (trivias true (rest s)); congruence.
    - congruence.
    - congruence.
    - pose proof (IHg1 s ltac:(assumption) ltac:(assumption) ltac:(assumption) ltac:(assumption) Hq).
      pose proof (run_rest g1 s ltac:(assumption) Hq) as Hr.
      destruct (run true self g1 s) as [o s1|e s1| |]; try congruence.
      pose proof (IHg2 s1 ltac:(assumption) ltac:(assumption) ltac:(assumption) ltac:(assumption) Hr).
      destruct (run true self g2 s1); congruence.
    - pose proof (IHg1 s ltac:(assumption) ltac:(assumption) ltac:(assumption) ltac:(assumption) Hq).
      destruct (run true self g1 s) as [o s1|e s1| |]; try congruence. now apply IHg2.
    - pose proof (IHg s Hw Ht Hl Hk Hq). destruct (run true self g s); congruence.
    - apply rep_loop_quiet; auto.
    - pose proof (IHg s Hw Ht ltac:(assumption) Hk Hq). pose proof (run_rest g s Hw Hq) as Hr.
      destruct (run true self g s) as [o s1|e s1| |]; try congruence.
      pose proof (rep_loop_quiet g (S (length (rest s1))) s1 ltac:(intros; apply IHg; auto) Hw Ht ltac:(assumption) Hr).
      destruct (rep_loop _ _ _ s1); congruence.
    - generalize (S (length (rest s))) as n. intros n. revert s Hq.
      induction n as [|n IHn]; intros s Hq; cbn [till_loop]; [congruence|].
      pose proof (IHg2 s ltac:(assumption) ltac:(assumption) ltac:(assumption) ltac:(assumption) Hq).
      destruct (run true self g2 s) as [o s1|e s1| |]; try congruence.
      pose proof (IHg1 (reset s s1) ltac:(assumption) ltac:(assumption) ltac:(assumption) ltac:(assumption) Hq).
      pose proof (run_rest g1 (reset s s1) ltac:(assumption) Hq) as Hr.
      destruct (run true self g1 (reset s s1)) as [o s2|e2 s2| |] eqn:E; try congruence.
      apply run_lt in E; auto. simpl in E.
      destruct (Nat.eqb_spec (length (rest s2)) (length (rest s))); [lia|].
      pose proof (IHn s2 Hr). destruct (till_loop _ _ _ n s2); congruence.
    - match goal with H : look_quiet l |- _ => pose proof (H (rest s) Hq) end.
      destruct (l true (rest s)) as [w| | |]; try congruence. destruct (p w); auto.
    - pose proof (IHg s Hw Ht Hl Hk Hq). destruct (run true self g s); congruence.
    - pose proof (IHg s Hw Ht Hl Hk Hq). destruct (run true self g s); congruence.
    - generalize (S (length (rest s))) as n. intros n. revert s Hq.
      induction n as [|n IHn]; intros s Hq; cbn [retry_loop]; [congruence|].
      pose proof (trivias_quiet (rest s) Hq).
      destruct (trivias true (rest s)) as [tr r| | |] eqn:Et; try congruence. cbv zeta.
      pose proof (quiet_trivias _ _ _ _ Et Hq) as Hq1.
      fold (tadv s tr r). pose proof (IHg (tadv s tr r) Hw Ht Hl Hk Hq1).
      destruct (run true self g (tadv s tr r)) as [o s1|e s1| |]; try congruence.
      pose proof (recover_quiet names e (reset (tadv s tr r) s1) Hq1).
      destruct (recover true names e (reset (tadv s tr r) s1)) as [o s2|o s2|s2| |] eqn:Er; try congruence.
      assert (Hq2 : quiet (rest s2)).
      { apply (or_introl (B := recover true names e (reset (tadv s tr r) s1) = RecTerm o s2)) in Er.
        apply Inv_recover in Er as (_ & c & (Ha & _) & _). simpl in Ha, Hq1. rewrite Ha in Hq1.
        eapply quiet_app; eauto. }
      pose proof (IHn s2 Hq2). destruct (retry_loop _ _ _ n s2); congruence.
    - unfold retry_once. pose proof (trivias_quiet (rest s) Hq).
      destruct (trivias true (rest s)) as [tr r| | |] eqn:Et; try congruence. cbv zeta.
      pose proof (quiet_trivias _ _ _ _ Et Hq) as Hq1.
      fold (tadv s tr r). pose proof (IHg (tadv s tr r) Hw Ht Hl Hk Hq1).
      destruct (run true self g (tadv s tr r)) as [o s1|e s1| |]; try congruence.
      pose proof (recover_quiet names e (reset (tadv s tr r) s1) Hq1).
      destruct (recover true names e (reset (tadv s tr r) s1)); congruence.
    - unfold must. pose proof (IHg s Hw Ht Hl Hk Hq). destruct (run true self g s); congruence.
    - enough (He : forall n s0 s acc, quiet (rest s) -> rparen_loop true s0 acc n s <> RPanic)
        by (apply He; exact Hq).
      clear s Hq. intros n s0. induction n as [|n IHn]; intros s acc Hq; cbn [rparen_loop]; [congruence|].
      pose proof (trivias_quiet (rest s) Hq).
      destruct (trivias true (rest s)) as [tr r| | |] eqn:Et; try congruence.
      pose proof (quiet_trivias _ _ _ _ Et Hq) as Hq1.
      destruct (strip_prefix (T ")") r); [congruence|].
      destruct (error_token false r) as [c r2|c r2] eqn:E; [|congruence].
      destruct (Nat.eqb _ _); [congruence|]. apply IHn.
      exact (quiet_lex _ _ _ _ (error_token_split false) Hq1 (or_introl E)).
    - apply self_quiet. exact Hq.
  Qed.
End RunQuiet.

Lemma run_instr_quiet n s : quiet (rest s) -> run_instr true n s <> RPanic.
Proof.
  revert s. induction n as [|n IH]; intros s Hq; cbn [run_instr]; [congruence|].
  apply run_quiet; auto using instr_body_wf, instr_body_wf_tok, instr_body_loops, instr_body_quiet.
  apply run_instr_sound.
Qed.

Theorem parse_debug_ok src : ~ two_openers src -> parse true src = parse false src.
Proof.
  intros Hq. destruct (parse_dbg src) as [H|H]; [|exact H]. exfalso. revert H.
  destruct (parse_release_total src) as (tree & errs & Hrel).
  unfold parse. set (s := mk_st src 0 []).
  assert (Hr : root true s <> RPanic).
  { unfold root. set (n := S (length (rest s))).
    assert (H1 : run true (run_instr true n) (GRep (GRetryOnce module [])) s <> RPanic).
    { apply run_quiet; auto using module_loops, run_instr_quiet.
      - apply run_instr_sound.
      - apply module_wf.
      - apply module_wf_tok.
      - apply module_quiet. }
    pose proof (run_rest (run_instr true n) (run_instr_sound true n)
      (GRep (GRetryOnce module [])) s module_wf Hq) as H2.
    destruct (run true (run_instr true n) (GRep (GRetryOnce module [])) s) as [o1 s1|e s1| |]; try congruence.
    assert (H3 : forall n s, quiet (rest s) -> rep_loop true (root_item true) n s <> RPanic).
    { clear. induction n as [|n IH]; intros s Hq; cbn [rep_loop]; [congruence|].
      destruct (root_item true s) as [o s1|e s1| |] eqn:E; try congruence.
      - apply root_item_consumes in E as Hlt.
        destruct (Nat.eqb_spec (length (rest s1)) (length (rest s))); [lia|].
        apply root_item_inv in E; [|exact I]. destruct E as (_ & c & (Ha & _) & _).
        rewrite Ha in Hq. apply quiet_app in Hq. pose proof (IH s1 Hq).
        destruct (rep_loop true _ n s1); congruence.
      - exfalso. unfold root_item in E. destruct (trivia1 true (rest s)) eqn:Et; try congruence.
        + destruct (error_token true (rest s)); congruence.
        + apply Hq, trivia1_panic, Et. }
    pose proof (H3 (S (length (rest s1))) s1 H2).
    destruct (rep_loop _ _ _ s1); congruence. }
  pose proof (root_spec true s) as Hsp.
  destruct (root true s) as [o s1|e s1| |]; try congruence.
  destruct (Hsp _ eq_refl I) as (? & ? & ? & ? & Heq & _). discriminate.
Qed.
