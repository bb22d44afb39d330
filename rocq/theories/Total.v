(** The parser terminates, never fails, and in release builds never panics. *)

From Coq Require Import String List NArith Bool Arith Lia.
From Verif Require Import Text Kind Green Lexer LexerFacts Winnow Sem Grammar Lossless.
Import ListNotations.

(** Success of [g] consumes input (all token parsers consume, see [wf_tok]). *)
Fixpoint consumes (g : grammar) : bool :=
  match g with
  | GTok _ _ | GFail | GInstr => true
  | GTriv | GEmpty | GOpt _ | GRep _ | GMust _ | GRParen => false
  | GSeq a b => consumes a || consumes b
  | GAlt a b | GIf _ _ a b => consumes a && consumes b
  | GRep1 a | GNode _ a | GCtx _ a | GRetry a _ | GRetryOnce a _ => consumes a
  | GTill _ g => consumes g
  end.

(** [GInstr] is only reached after input was consumed. *)
Fixpoint guarded (g : grammar) : bool :=
  match g with
  | GTok _ _ | GTriv | GEmpty | GFail | GRParen => true
  | GInstr => false
  | GSeq a b => guarded a && (consumes a || guarded b)
  | GAlt a b | GIf _ _ a b | GTill a b => guarded a && guarded b
  | GOpt a | GRep a | GRep1 a | GNode _ a | GCtx _ a | GRetry a _ | GRetryOnce a _
  | GMust a => guarded a
  end.

(** Loop bodies consume input, so winnow's assertion never fires. *)
Fixpoint loops_ok (g : grammar) : bool :=
  match g with
  | GTok _ _ | GTriv | GEmpty | GFail | GRParen | GInstr => true
  | GSeq a b | GAlt a b | GIf _ _ a b => loops_ok a && loops_ok b
  | GTill a b => consumes a && loops_ok a && loops_ok b
  | GRep a | GRep1 a => consumes a && loops_ok a
  | GOpt a | GNode _ a | GCtx _ a | GRetry a _ | GRetryOnce a _ | GMust a => loops_ok a
  end.

Definition look_total (l : look) : Prop := forall dbg t, l dbg t <> AOof.
Definition look_safe (l : look) : Prop := forall t, l false t <> APanic.

(** Token parsers consume on success, lookahead parsers terminate and are
    safe in release builds. *)
Fixpoint wf_tok (g : grammar) : Prop :=
  match g with
  | GTok _ l => lex_pos l
  | GIf l _ a b => (look_total l /\ look_safe l) /\ wf_tok a /\ wf_tok b
  | GSeq a b | GAlt a b | GTill a b => wf_tok a /\ wf_tok b
  | GOpt a | GRep a | GRep1 a | GNode _ a | GCtx _ a | GRetry a _ | GRetryOnce a _
  | GMust a => wf_tok a
  | GTriv | GEmpty | GFail | GRParen | GInstr => True
  end.

Create HintDb pos.
#[export] Hint Resolve word_pos ident_l_pos string_l_pos unsigned_int_l_pos int_l_pos float_l_pos
  mem_arg_l_pos l_verify_pos : pos.

Lemma trivias_release_safe t : trivias false t <> PPanic.
Proof.
  unfold trivias. generalize (S (length t)) as n. intros n. revert t.
  assert (Hbc : forall n t, bc_loop false n t <> PPanic).
  { clear. induction n as [|n IH]; intros t; cbn [bc_loop]; [congruence|].
    destruct (strip_prefix (T ";)") t); [congruence|].
    destruct (until_comment_delim t) as [[a t1]|]; [|congruence].
    destruct (strip_prefix (T "(;") t1) as [t2|].
    - pose proof (IH t2). destruct (bc_loop false n t2) as [c1 r1| | |]; try congruence.
      + pose proof (IH r1). destruct (bc_loop false n r1); congruence.
      + destruct a; [congruence|]. pose proof (IH t1). destruct (bc_loop false n t1); congruence.
    - destruct a; [congruence|]. pose proof (IH t1). destruct (bc_loop false n t1); congruence. }
  induction n as [|n IH]; intros t; cbn [trivias_loop]; [congruence|].
  unfold trivia1. destruct (ws t) as [c r|c0 r0].
  { pose proof (IH r). destruct (trivias_loop false n r); congruence. }
  destruct (line_comment t) as [c r|c1 r1].
  { pose proof (IH r). destruct (trivias_loop false n r); congruence. }
  unfold block_comment. destruct (strip_prefix (T "(;") t) as [t1|]; [|congruence].
  pose proof (Hbc (S (length t1)) t1).
  destruct (bc_loop false (S (length t1)) t1) as [c r| | |]; try congruence.
  pose proof (IH r). destruct (trivias_loop false n r); congruence.
Qed.

Lemma la_triv_safe f t : (forall r, f r <> APanic) -> la_triv f false t <> APanic.
Proof.
  intros Hf. unfold la_triv. pose proof (trivias_release_safe t).
  destruct (trivias false t); congruence || apply Hf.
Qed.

Lemma la_word_not_oof t : la_word t <> AOof.
Proof. unfold la_word; destruct (word t); congruence. Qed.
Lemma la_word_not_panic t : la_word t <> APanic.
Proof. unfold la_word; destruct (word t); congruence. Qed.

Lemma la_any_ok : look_total la_any /\ look_safe la_any.
Proof. split; repeat intro; destruct t; discriminate. Qed.
Lemma la_triv_any_ok : look_total la_triv_any /\ look_safe la_triv_any.
Proof.
  split; repeat intro.
  - revert H. apply la_triv_not_oof. intros [|c r]; discriminate.
  - revert H. apply la_triv_safe. intros [|c r]; discriminate.
Qed.
Lemma la_paren_word_ok : look_total la_paren_word /\ look_safe la_paren_word.
Proof.
  split; repeat intro; revert H; unfold la_paren_word; destruct (strip_prefix (T "(") t);
    try congruence.
  - apply la_triv_not_oof. apply la_word_not_oof.
  - apply la_triv_safe. apply la_word_not_panic.
Qed.
Lemma la_opt_paren_word_ok : look_total la_opt_paren_word /\ look_safe la_opt_paren_word.
Proof.
  split; repeat intro; revert H; unfold la_opt_paren_word; destruct (strip_prefix (T "(") t);
    try apply la_word_not_oof; try apply la_word_not_panic.
  - apply la_triv_not_oof. apply la_word_not_oof.
  - apply la_triv_safe. apply la_word_not_panic.
Qed.
Lemma la_lparen_ok : look_total la_lparen /\ look_safe la_lparen.
Proof.
  split; repeat intro; revert H; unfold la_lparen; destruct (strip_prefix (T "(") t); congruence.
Qed.
Lemma la_block_end_ok l : look_total (la_block_end l) /\ look_safe (la_block_end l).
Proof.
  split; repeat intro; revert H; unfold la_block_end;
    [apply la_triv_not_oof|apply la_triv_safe]; intros r;
    destruct (l_verify _ _ r); try congruence; destruct (strip_prefix (T ")") r); congruence.
Qed.

Ltac solve_wf_tok :=
  repeat match goal with
         | |- True => exact I
         | |- look_total _ /\ look_safe _ =>
             solve [ apply la_any_ok | apply la_triv_any_ok | apply la_paren_word_ok
                   | apply la_opt_paren_word_ok | apply la_lparen_ok | apply la_block_end_ok ]
         | |- _ /\ _ => split
         | |- wf_tok (if ?b then _ else _) => destruct b
         | |- lex_pos _ => solve [ auto 10 with pos | apply l_lit_pos; discriminate ]
         end.

Lemma instr_body_wf_tok : wf_tok instr_body.
Proof. cbn; solve_wf_tok. Qed.
Lemma module_wf_tok : wf_tok module.
Proof. cbn; solve_wf_tok. Qed.

Lemma instr_body_consumes : consumes instr_body = true.
Proof. reflexivity. Qed.
Lemma instr_body_guarded : guarded instr_body = true.
Proof. reflexivity. Qed.
Lemma instr_body_loops : loops_ok instr_body = true.
Proof. reflexivity. Qed.
Lemma module_loops : loops_ok (GRep (GRetryOnce module [])) = true.
Proof. reflexivity. Qed.

(** ** Consumption *)

Lemma Inv_le s r : Inv s r -> match r with
  | ROk _ s1 | RErr _ s1 => length (rest s1) <= length (rest s) | _ => True end.
Proof.
  destruct r as [o s1|e s1| |]; simpl; auto.
  - intros (_ & c & (H & _) & _). rewrite H, app_length. lia.
  - intros (_ & c & H & _). rewrite H, app_length. lia.
Qed.

Lemma recover_lt dbg ns e ts o s :
  recover dbg ns e ts = RecTok o s \/ recover dbg ns e ts = RecTerm o s ->
  length (rest s) < length (rest ts).
Proof.
  intros [H|H].
  - apply recover_tok in H as (c & r & _ & Hr & Hne & _ & ->). rewrite Hr, app_length.
    destruct c; [congruence|simpl; lia].
  - apply recover_term in H as (c & r & r2 & _ & Hr & Het & ->).
    apply error_term_spec in Het as (-> & _ & l' & ->).
    rewrite Hr, gtexts_cons, !app_length. cbn. lia.
Qed.

Theorem Ev_consumes dbg ib g s o s1 :
  wf_lex ib -> wf_tok ib -> consumes ib = true ->
  Ev dbg ib g s (ROk o s1) -> wf_lex g -> wf_tok g -> consumes g = true ->
  length (rest s1) < length (rest s).
Proof.
  intros Hl Ht Hc H. remember (ROk o s1) as r eqn:Er. revert o s1 Er.
  assert (Mono : forall g s r, Ev dbg ib g s r -> wf_lex g ->
    match r with ROk _ s1 | RErr _ s1 => length (rest s1) <= length (rest s) | _ => True end).
  { intros g0 s0 r0 He Hw. exact (Inv_le s0 r0 (Ev_inv dbg ib g0 s0 r0 Hl He Hw)). }
  induction H; intros o' s' Er Hwf Hwt Hcs; cbn [wf_lex wf_tok consumes] in *;
    try discriminate;
    repeat match goal with H : _ /\ _ |- _ => destruct H end;
    repeat match goal with H : _ && _ = true |- _ => apply andb_prop in H as [? ?] end;
    try (injection Er as <- <-);
    try (eapply IHEv; eauto; fail).
  - specialize (Hwf (rest s)). rewrite H in Hwf. apply Hwt in H. rewrite Hwf. simpl.
    rewrite app_length. destruct c; [congruence|simpl; lia].
  - destruct r as [o2 s2|e2 s2| |]; try discriminate. injection Er as <- <-.
    pose proof (Mono _ _ _ H ltac:(assumption)). pose proof (Mono _ _ _ H0 ltac:(assumption)).
    simpl in *. apply orb_prop in Hcs as [Hcs|Hcs].
    + specialize (IHEv1 _ _ eq_refl ltac:(assumption) ltac:(assumption) Hcs). lia.
    + specialize (IHEv2 _ _ eq_refl ltac:(assumption) ltac:(assumption) Hcs). lia.
  - subst r. specialize (IHEv2 _ _ eq_refl ltac:(assumption) ltac:(assumption) ltac:(assumption)).
    exact IHEv2.
  - destruct r as [o2 s2|e2 s2| |]; try discriminate. injection Er as <- <-.
    pose proof (Mono (GRep a) _ _ H0 Hwf).
    specialize (IHEv1 _ _ eq_refl Hwf Hwt Hcs). simpl in *. lia.
  - destruct r as [o3 s3|e3 s3| |]; try discriminate. injection Er as <- <-.
    pose proof (Mono _ _ _ H0 ltac:(assumption)) as M. simpl in M.
    specialize (IHEv3 _ _ eq_refl ltac:(split; assumption) ltac:(split; assumption) Hcs). lia.
  - apply trivias_length in H. specialize (IHEv _ _ eq_refl Hwf Hwt Hcs). simpl in *. lia.
  - destruct x as [o3 s3|e3 s3| |]; try discriminate. injection Er as <- <-.
    apply trivias_length in H. pose proof (recover_lt _ _ _ _ _ _ (or_introl H1)).
    specialize (IHEv2 _ _ eq_refl Hwf Hwt Hcs). simpl in *. lia.
  - apply trivias_length in H. pose proof (recover_lt _ _ _ _ _ _ (or_intror H1)).
    simpl in *. lia.
  - apply trivias_length in H. specialize (IHEv _ _ eq_refl Hwf Hwt Hcs). simpl in *. lia.
  - apply trivias_length in H. pose proof (recover_lt _ _ _ _ _ _ H1). simpl in *. lia.
Qed.

(** Repetition never fails. *)
Lemma Ev_rep_ok dbg ib a s r :
  wf_lex ib -> wf_tok ib -> consumes ib = true -> wf_lex a -> wf_tok a -> consumes a = true ->
  Ev dbg ib (GRep a) s r -> exists o s1, r = ROk o s1.
Proof.
  intros Hl Ht Hc Hla Hta Hca H. remember (GRep a) as g eqn:Eg.
  induction H; try discriminate; injection Eg as ->.
  - eauto.
  - exfalso. eapply Ev_consumes in H; eauto. lia.
  - destruct (IHEv2 eq_refl) as (o' & s' & ->). simpl. eauto.
Qed.

(** ** No loop runs out of fuel *)

Section Fuel.
  Variable dbg : bool.
  Variable self : st -> res.
  Let ib := instr_body.
  Hypothesis self_sound : forall s r, self s = r -> proper r -> Ev dbg ib GInstr s r.
  Variable N : nat.
  Hypothesis self_fuel : forall s, length (rest s) < N -> self s <> ROof.

  Lemma rparen_loop_fuel s0 acc n s :
    length (rest s) < n -> rparen_loop dbg s0 acc n s <> ROof.
  Proof using Type.
    clear self_fuel self_sound.
    revert acc s. induction n as [|n IH]; intros acc s Hn; [lia|]. cbn [rparen_loop].
    pose proof (trivias_fuel dbg (rest s)).
    destruct (trivias dbg (rest s)) as [tr r| | |] eqn:E; try congruence.
    destruct (strip_prefix (T ")") r); [congruence|].
    destruct (error_token false r) as [c r2|c r2] eqn:E2; [|congruence].
    destruct (Nat.eqb_spec (length r2) (length r)); [congruence|].
    apply IH. simpl. pose proof (error_token_split false r) as Hs. rewrite E2 in Hs.
    apply trivias_length in E. rewrite Hs, app_length in E. 
    rewrite Hs, app_length in n0. lia.
  Qed.

  Lemma run_le g s r : wf_lex g -> run dbg self g s = r -> proper r ->
    match r with ROk _ s1 | RErr _ s1 => length (rest s1) <= length (rest s) | _ => True end.
  Proof.
    intros Hw H Hp. exact (Inv_le s r (Ev_inv dbg ib g s r instr_body_wf
      (run_sound dbg ib self g self_sound s r H Hp) Hw)).
  Qed.

  Lemma run_lt g s o s1 : wf_lex g -> wf_tok g -> consumes g = true ->
    run dbg self g s = ROk o s1 -> length (rest s1) < length (rest s).
  Proof.
    intros Hw Hw2 Hc H. eapply (Ev_consumes dbg ib g);
      eauto using instr_body_wf, instr_body_wf_tok, instr_body_consumes.
    eapply run_sound; eauto. exact I.
  Qed.

  Lemma rep_loop_fuel f n s :
    (forall s' o s1, f s' = ROk o s1 -> length (rest s1) <= length (rest s')) ->
    (forall s', length (rest s') <= length (rest s) -> f s' <> ROof) ->
    length (rest s) < n -> rep_loop dbg f n s <> ROof.
  Proof using Type.
    clear self_fuel self_sound.
    intros Hle. revert s. induction n as [|n IH]; intros s Hf Hn; [lia|]. cbn [rep_loop].
    pose proof (Hf s (le_n _)).
    destruct (f s) as [o s1|e s1| |] eqn:E; try congruence.
    apply Hle in E.
    destruct (Nat.eqb_spec (length (rest s1)) (length (rest s))).
    - unfold assert_fail. destruct dbg; congruence.
    - pose proof (IH s1 ltac:(intros; apply Hf; lia) ltac:(lia)).
      destruct (rep_loop dbg f n s1); congruence.
  Qed.

  Lemma till_loop_fuel f g n s :
    (forall s' o s1, f s' = ROk o s1 -> length (rest s1) <= length (rest s')) ->
    (forall s', length (rest s') <= length (rest s) -> f s' <> ROof) ->
    (forall s', length (rest s') <= length (rest s) -> g s' <> ROof) ->
    length (rest s) < n -> till_loop dbg f g n s <> ROof.
  Proof using Type.
    clear self_fuel self_sound.
    intros Hle. revert s. induction n as [|n IH]; intros s Hf Hg Hn; [lia|]. cbn [till_loop].
    pose proof (Hg s (le_n _)).
    destruct (g s) as [o s1|e s1| |] eqn:E; try congruence.
    pose proof (Hf (reset s s1) (le_n _)).
    destruct (f (reset s s1)) as [o s2|e2 s2| |] eqn:E2; try congruence.
    apply Hle in E2. simpl in E2.
    destruct (Nat.eqb_spec (length (rest s2)) (length (rest s))).
    - unfold assert_fail. destruct dbg; congruence.
    - pose proof (IH s2 ltac:(intros; apply Hf; lia) ltac:(intros; apply Hg; lia) ltac:(lia)).
      destruct (till_loop dbg f g n s2); congruence.
  Qed.

  Lemma recover_fuel ns e ts : recover dbg ns e ts <> RecOof.
  Proof using Type.
    clear self_fuel self_sound.
    unfold recover. destruct (error_token false (rest ts)) as [c r|c r].
    - destruct (Nat.eqb _ _); congruence.
    - pose proof (error_term_fuel dbg ns r). destruct (error_term dbg ns r); try congruence.
      destruct (Nat.eqb _ _); congruence.
  Qed.

  Lemma retry_loop_fuel f ns n s :
    (forall s', length (rest s') <= length (rest s) -> f s' <> ROof) ->
    length (rest s) < n -> retry_loop dbg f ns n s <> ROof.
  Proof using Type.
    clear self_fuel self_sound.
    revert s. induction n as [|n IH]; intros s Hf Hn; [lia|]. cbn [retry_loop].
    pose proof (trivias_fuel dbg (rest s)).
    destruct (trivias dbg (rest s)) as [tr r| | |] eqn:E; try congruence. cbv zeta.
    apply trivias_length in E.
    fold (tadv s tr r). pose proof (Hf (tadv s tr r) ltac:(simpl; lia)).
    destruct (f (tadv s tr r)) as [o s1|e s1| |]; try congruence.
    pose proof (recover_fuel ns e (reset (tadv s tr r) s1)).
    destruct (recover dbg ns e (reset (tadv s tr r) s1)) as [o s2|o s2|s2| |] eqn:E2; try congruence.
    pose proof (recover_lt _ _ _ _ _ _ (or_introl E2)) as Hlt. simpl in Hlt.
    pose proof (IH s2 ltac:(intros; apply Hf; lia) ltac:(lia)).
    destruct (retry_loop _ _ _ _ _); congruence.
  Qed.

  Lemma run_fuel g s :
    wf_lex g -> wf_tok g -> length (rest s) <= N ->
    (guarded g = true \/ length (rest s) < N) -> run dbg self g s <> ROof.
  Proof.
    revert s. induction g; intros s Hw Hw2 Hle Hg; cbn [run wf_lex wf_tok guarded] in *;
      repeat match goal with H : _ /\ _ |- _ => destruct H end.
    - destruct (l (rest s)); congruence.
    - pose proof (trivias_fuel dbg (rest s)). destruct (trivias dbg (rest s)); congruence.
    - congruence.
    - congruence.
    - assert (Hg1 : guarded g1 = true \/ length (rest s) < N).
      { destruct Hg as [Hg|]; [|auto]. apply andb_prop in Hg as [? ?]. auto. }
      pose proof (IHg1 s ltac:(assumption) ltac:(assumption) Hle Hg1).
      destruct (run dbg self g1 s) as [o s1|e s1| |] eqn:E; try congruence.
      pose proof (run_le g1 s _ ltac:(assumption) E I) as Hle1. simpl in Hle1.
      assert (Hg2 : guarded g2 = true \/ length (rest s1) < N).
      { destruct Hg as [Hg|Hg]; [|right; lia]. apply andb_prop in Hg as [_ Hg].
        apply orb_prop in Hg as [Hg|Hg]; [right|auto].
        apply run_lt in E; auto. lia. }
      pose proof (IHg2 s1 ltac:(assumption) ltac:(assumption) ltac:(lia) Hg2).
      destruct (run dbg self g2 s1); congruence.
    - assert (Hg1 : guarded g1 = true \/ length (rest s) < N).
      { destruct Hg as [Hg|]; [|auto]. apply andb_prop in Hg as [? ?]. auto. }
      assert (Hg2 : guarded g2 = true \/ length (rest s) < N).
      { destruct Hg as [Hg|]; [|auto]. apply andb_prop in Hg as [? ?]. auto. }
      pose proof (IHg1 s ltac:(assumption) ltac:(assumption) Hle Hg1).
      destruct (run dbg self g1 s) as [o s1|e s1| |] eqn:E; try congruence.
      apply IHg2; assumption.
    - pose proof (IHg s Hw Hw2 Hle Hg). destruct (run dbg self g s); congruence.
    - apply rep_loop_fuel; [|intros s' Hs'; apply IHg; auto; [lia|destruct Hg; [auto|right; lia]]|lia].
      intros s' o s1 E. exact (run_le g s' _ Hw E I).
    - pose proof (IHg s Hw Hw2 Hle Hg).
      destruct (run dbg self g s) as [o s1|e s1| |] eqn:E; try congruence.
      pose proof (run_le g s _ Hw E I) as Hle1. simpl in Hle1.
      assert (rep_loop dbg (run dbg self g) (S (length (rest s1))) s1 <> ROof).
      { apply rep_loop_fuel; [|intros s' Hs'; apply IHg; auto; [lia|destruct Hg; [auto|right; lia]]|lia].
        intros s' o' s1' E'. exact (run_le g s' _ Hw E' I). }
      destruct (rep_loop _ _ _ s1); congruence.
    - assert (Hg1 : guarded g1 = true \/ length (rest s) < N).
      { destruct Hg as [Hg|]; [|auto]. apply andb_prop in Hg as [? ?]. auto. }
      assert (Hg2 : guarded g2 = true \/ length (rest s) < N).
      { destruct Hg as [Hg|]; [|auto]. apply andb_prop in Hg as [? ?]. auto. }
      apply till_loop_fuel; [| | |lia].
      + intros s' o s1 E. exact (run_le g1 s' _ ltac:(assumption) E I).
      + intros s' Hs'. apply IHg1; auto; [lia|]. destruct Hg1; [auto|right; lia].
      + intros s' Hs'. apply IHg2; auto; [lia|]. destruct Hg2; [auto|right; lia].
    - assert (Hg1 : guarded g1 = true \/ length (rest s) < N).
      { destruct Hg as [Hg|]; [|auto]. apply andb_prop in Hg as [? ?]. auto. }
      assert (Hg2 : guarded g2 = true \/ length (rest s) < N).
      { destruct Hg as [Hg|]; [|auto]. apply andb_prop in Hg as [? ?]. auto. }
      assert (l dbg (rest s) <> AOof) by auto.
      destruct (l dbg (rest s)) as [w| | |]; try congruence.
      destruct (p w); [apply IHg1|apply IHg2]; assumption.
    - pose proof (IHg s Hw Hw2 Hle Hg). destruct (run dbg self g s); congruence.
    - pose proof (IHg s Hw Hw2 Hle Hg). destruct (run dbg self g s); congruence.
    - apply retry_loop_fuel; [|lia]. intros s' Hs'. apply IHg; auto; [lia|].
      destruct Hg; [auto|right; lia].
    - unfold retry_once. pose proof (trivias_fuel dbg (rest s)).
      destruct (trivias dbg (rest s)) as [tr r| | |] eqn:E; try congruence. cbv zeta.
      apply trivias_length in E. fold (tadv s tr r).
      assert (run dbg self g (tadv s tr r) <> ROof).
      { apply IHg; auto; simpl; [lia|]. destruct Hg; [auto|right; lia]. }
      destruct (run dbg self g (tadv s tr r)) as [o s1|e s1| |]; try congruence.
      pose proof (recover_fuel names e (reset (tadv s tr r) s1)).
      destruct (recover dbg names e (reset (tadv s tr r) s1)); congruence.
    - unfold must. pose proof (IHg s Hw Hw2 Hle Hg). destruct (run dbg self g s); congruence.
    - apply rparen_loop_fuel. lia.
    - destruct Hg as [Hg|Hg]; [discriminate|]. now apply self_fuel.
  Qed.
End Fuel.

Lemma run_instr_sound dbg n s r :
  run_instr dbg n s = r -> proper r -> Ev dbg instr_body GInstr s r.
Proof.
  revert s r. induction n as [|n IH]; intros s r; cbn [run_instr].
  - intros <-. simpl. contradiction.
  - intros H Hp. apply EInstr. eapply run_sound; eauto.
Qed.

Lemma run_instr_fuel dbg n s : length (rest s) < n -> run_instr dbg n s <> ROof.
Proof.
  revert s. induction n as [|n IH]; intros s Hn; [lia|]. cbn [run_instr].
  apply (run_fuel dbg (run_instr dbg n) (run_instr_sound dbg n) n IH);
    auto using instr_body_wf, instr_body_wf_tok, instr_body_guarded. lia.
Qed.

(** ** No panic in release builds *)

Section Safe.
  Variable self : st -> res.
  Hypothesis self_safe : forall s, self s <> RPanic.

  Lemma error_term_safe ns t : error_term false ns t <> PPanic.
  Proof using Type.
    clear self_safe.
    unfold error_term.
    match goal with |- context [la_triv ?f false t] => set (G := f) end.
    assert (HG : la_triv G false t <> APanic).
    { apply la_triv_safe. intros r. subst G. cbv beta.
      destruct (strip_prefix (T "(") r); [|congruence]. apply la_triv_safe.
      intros x. destruct (l_verify _ _ x); congruence. }
    destruct (la_triv G false t); try congruence.
    unfold error_term_inner. destruct (strip_prefix (T "(") t) as [t1|]; [|congruence].
    generalize (S (length t1)) as n. intros n.
    assert (Het : forall n t, et_loop false n t <> PPanic).
    { clear. induction n as [|n IH]; intros t; cbn [et_loop]; [congruence|].
      pose proof (trivias_release_safe t).
      destruct (trivias false t) as [tr t1| | |]; try congruence.
      destruct (strip_prefix (T "(") t1) as [t2|].
      - pose proof (IH t2). destruct (et_loop false n t2) as [items t3| | |]; try congruence.
        destruct (opt_rparen_error t3) as [rp t4].
        pose proof (IH t4). destruct (et_loop false n t4); congruence.
      - destruct (error_token false t1) as [c r|c r]; [|congruence].
        pose proof (IH r). destruct (et_loop false n r); congruence. }
    pose proof (Het n t1). destruct (et_loop false n t1) as [items t3| | |]; try congruence.
    destruct (opt_rparen_error t3); congruence.
  Qed.

  Lemma recover_safe ns e ts : recover false ns e ts <> RecPanic.
  Proof using Type.
    clear self_safe.
    unfold recover. destruct (error_token false (rest ts)) as [c r|c r].
    - destruct (Nat.eqb _ _); congruence.
    - pose proof (error_term_safe ns r). destruct (error_term false ns r); try congruence.
      destruct (Nat.eqb _ _); congruence.
  Qed.

  Lemma rep_loop_safe f n s : (forall s', f s' <> RPanic) -> rep_loop false f n s <> RPanic.
  Proof using Type.
    clear self_safe.
    intros Hf. revert s. induction n as [|n IH]; intros s; cbn [rep_loop]; [congruence|].
    pose proof (Hf s). destruct (f s) as [o s1|e s1| |]; try congruence.
    destruct (Nat.eqb _ _); [simpl; congruence|].
    pose proof (IH s1). destruct (rep_loop false f n s1); congruence.
  Qed.

  Lemma run_safe g s : wf_tok g -> run false self g s <> RPanic.
  Proof.
    revert s. induction g; intros s Hw; cbn [run wf_tok] in *;
      repeat match goal with H : _ /\ _ |- _ => destruct H end.
    - destruct (l (rest s)); congruence.
    - pose proof (trivias_release_safe (rest s)). destruct (trivias false (rest s)); congruence.
    - congruence.
    - congruence.
    - pose proof (IHg1 s ltac:(assumption)).
      destruct (run false self g1 s) as [o s1|e s1| |]; try congruence.
      pose proof (IHg2 s1 ltac:(assumption)). destruct (run false self g2 s1); congruence.
    - pose proof (IHg1 s ltac:(assumption)).
      destruct (run false self g1 s) as [o s1|e s1| |]; try congruence. now apply IHg2.
    - pose proof (IHg s Hw). destruct (run false self g s); congruence.
    - apply rep_loop_safe. auto.
    - pose proof (IHg s Hw). destruct (run false self g s) as [o s1|e s1| |]; try congruence.
      pose proof (rep_loop_safe (run false self g) (S (length (rest s1))) s1 ltac:(auto)).
      destruct (rep_loop _ _ _ s1); congruence.
    - generalize (S (length (rest s))) as n. intros n. revert s.
      induction n as [|n IHn]; intros s; cbn [till_loop]; [congruence|].
      pose proof (IHg2 s ltac:(assumption)).
      destruct (run false self g2 s) as [o s1|e s1| |]; try congruence.
      pose proof (IHg1 (reset s s1) ltac:(assumption)).
      destruct (run false self g1 (reset s s1)) as [o s2|e2 s2| |]; try congruence.
      destruct (Nat.eqb _ _); [simpl; congruence|].
      pose proof (IHn s2). destruct (till_loop _ _ _ n s2); congruence.
    - assert (l false (rest s) <> APanic) by auto.
      destruct (l false (rest s)) as [w| | |]; try congruence.
      destruct (p w); auto.
    - pose proof (IHg s Hw). destruct (run false self g s); congruence.
    - pose proof (IHg s Hw). destruct (run false self g s); congruence.
    - generalize (S (length (rest s))) as n. intros n. revert s.
      induction n as [|n IHn]; intros s; cbn [retry_loop]; [congruence|].
      pose proof (trivias_release_safe (rest s)).
      destruct (trivias false (rest s)) as [tr r| | |]; try congruence. cbv zeta.
      fold (tadv s tr r). pose proof (IHg (tadv s tr r) Hw).
      destruct (run false self g (tadv s tr r)) as [o s1|e s1| |]; try congruence.
      pose proof (recover_safe names e (reset (tadv s tr r) s1)).
      destruct (recover false names e (reset (tadv s tr r) s1)) as [o s2|o s2|s2| |]; try congruence.
      pose proof (IHn s2). destruct (retry_loop _ _ _ n s2); congruence.
    - unfold retry_once. pose proof (trivias_release_safe (rest s)).
      destruct (trivias false (rest s)) as [tr r| | |]; try congruence. cbv zeta.
      fold (tadv s tr r). pose proof (IHg (tadv s tr r) Hw).
      destruct (run false self g (tadv s tr r)) as [o s1|e s1| |]; try congruence.
      pose proof (recover_safe names e (reset (tadv s tr r) s1)).
      destruct (recover false names e (reset (tadv s tr r) s1)); congruence.
    - unfold must. pose proof (IHg s Hw). destruct (run false self g s); congruence.
    - generalize (S (length (rest s))) as n, (@nil green) as acc.
      intros n. generalize s at 1 as s0. intros s0. revert s.
      induction n as [|n IHn]; intros s acc; cbn [rparen_loop]; [congruence|].
      pose proof (trivias_release_safe (rest s)).
      destruct (trivias false (rest s)) as [tr r| | |]; try congruence.
      destruct (strip_prefix (T ")") r); [congruence|].
      destruct (error_token false r) as [c r2|c r2]; [|congruence].
      destruct (Nat.eqb _ _); [congruence|]. apply IHn.
    - apply self_safe.
  Qed.
End Safe.

Lemma run_instr_safe n s : run_instr false n s <> RPanic.
Proof.
  revert s. induction n as [|n IH]; intros s; cbn [run_instr]; [congruence|].
  apply run_safe; auto using instr_body_wf_tok.
Qed.

(** ** [root] *)

Lemma root_item_inv dbg s r : root_item dbg s = r -> proper r -> Inv s r.
Proof.
  unfold root_item. destruct (trivia1 dbg (rest s)) as [g t| | |] eqn:E.
  - intros <- _. apply trivia1_spec in E as [E _].
    split; [apply LogExt_refl; reflexivity|]. exists (gtext g).
    unfold gtexts; simpl; rewrite app_nil_r. split; [split; [exact E|simpl; now rewrite glen_tlen]|].
    split; [apply Cov_refl|reflexivity].
  - pose proof (error_token_split true (rest s)) as Hs.
    destruct (error_token true (rest s)) as [c t|c t]; intros <- _.
    + now apply Inv_tok.
    + split; [apply LogExt_refl; reflexivity|]. exists c. split; [exact Hs|reflexivity].
  - intros <-. simpl. contradiction.
  - intros <-. simpl. contradiction.
Qed.

Lemma root_item_consumes dbg s o s1 :
  root_item dbg s = ROk o s1 -> length (rest s1) < length (rest s).
Proof.
  unfold root_item. destruct (trivia1 dbg (rest s)) as [g t| | |] eqn:E; try congruence.
  - intros H. injection H as <- <-. apply trivia1_length in E. exact E.
  - pose proof (error_token_split true (rest s)) as Hs.
    destruct (error_token true (rest s)) as [c t|c t] eqn:E2; intros H; [|congruence].
    injection H as <- <-. apply error_token_pos in E2. rewrite Hs, app_length.
    destruct c; [congruence|simpl; lia].
Qed.

Lemma root_item_fuel dbg s : root_item dbg s <> ROof.
Proof.
  unfold root_item. pose proof (trivia1_fuel dbg (rest s)).
  destruct (trivia1 dbg (rest s)); try congruence.
  destruct (error_token true (rest s)); congruence.
Qed.

(** The second loop of [root]: only trivia and error tokens, no errors
    recorded. *)
Lemma root_loop_spec dbg n s r :
  rep_loop dbg (root_item dbg) n s = r -> proper r ->
  exists o s1, r = ROk o s1 /\ Inv s (ROk o s1) /\ log s1 = log s
    /\ Forall (fun g => is_trivia_tok g \/ is_error_tok g) o
    /\ (exists e s2, root_item dbg s1 = RErr e s2).
Proof.
  revert s r. induction n as [|n IH]; intros s r; cbn [rep_loop].
  { intros <-. simpl. contradiction. }
  destruct (root_item dbg s) as [o s1|e s1| |] eqn:E.
  - apply root_item_consumes in E as Hlt.
    destruct (Nat.eqb_spec (length (rest s1)) (length (rest s))) as [|_]; [lia|].
    apply root_item_inv in E as Hi; [|exact I].
    destruct (rep_loop dbg (root_item dbg) n s1) as [o' s2|e' s2| |] eqn:E2;
      intros <-; simpl; try contradiction; intros _.
    2:{ destruct (IH _ _ E2 I) as (? & ? & ? & _). discriminate. }
    destruct (IH _ _ E2 I) as (o2 & s3 & Heq & Hi2 & Hl2 & Hf & Hst). injection Heq as <- <-.
    exists (o ++ o'), s2. split; [reflexivity|].
    split; [exact (Inv_seq s o s1 (ROk o' s2) Hi Hi2)|].
    assert (log s1 = log s /\ Forall (fun g => is_trivia_tok g \/ is_error_tok g) o) as [Hl1 Ho].
    { unfold root_item in E. destruct (trivia1 dbg (rest s)) as [g t| | |] eqn:Et; try congruence.
      - injection E as <- <-. apply trivia1_spec in Et as [_ Et]. auto.
      - destruct (error_token true (rest s)) as [c t|c t] eqn:Ee; [|congruence].
        injection E as <- <-. split; [reflexivity|]. constructor; [|constructor]. right.
        simpl. split; [reflexivity|]. eapply error_token_pos; eauto. }
    split; [congruence|]. split; [apply Forall_app; auto|exact Hst].
  - apply root_item_inv in E as Hi; [|exact I]. intros <- _.
    exists [], (reset s s1). split; [reflexivity|].
    assert (Hlog : log s1 = log s).
    { unfold root_item in E. destruct (trivia1 dbg (rest s)); try congruence.
      destruct (error_token true (rest s)); [congruence|]. injection E as <- <-. reflexivity. }
    split; [apply Inv_backtrack; apply LogExt_refl; exact Hlog|].
    split; [exact Hlog|]. split; [constructor|].
    unfold root_item in *. simpl.
    destruct (trivia1 dbg (rest s)); try congruence.
    destruct (error_token true (rest s)); [congruence|]. eauto.
  - intros <-. simpl. contradiction.
  - intros <-. simpl. contradiction.
Qed.

(** [root] decomposed: modules, then the trailing items. *)
Lemma root_spec dbg s r :
  root dbg s = r -> proper r ->
  exists o1 s1 o2 s2,
    r = ROk (o1 ++ o2) s2
    /\ Ev dbg instr_body (GRep (GRetryOnce module [])) s (ROk o1 s1)
    /\ rep_loop dbg (root_item dbg) (S (length (rest s1))) s1 = ROk o2 s2.
Proof.
  unfold root.
  destruct (run dbg (run_instr dbg (S (length (rest s)))) (GRep (GRetryOnce module [])) s)
    as [o1 s1|e s1| |] eqn:E; try (intros <-; simpl; contradiction).
  2:{ exfalso. eapply run_sound in E; [|apply run_instr_sound|exact I].
      eapply Ev_rep_ok in E as (? & ? & ?); [discriminate| | | | | |];
        auto using instr_body_wf, instr_body_wf_tok, instr_body_consumes.
      - apply module_wf.
      - apply module_wf_tok. }
  eapply run_sound in E; [|apply run_instr_sound|exact I].
  destruct (rep_loop dbg (root_item dbg) (S (length (rest s1))) s1) as [o2 s2|e2 s2| |] eqn:E2;
    intros <-; simpl; try contradiction; intros _.
  - eauto 10.
  - apply root_loop_spec in E2 as (? & ? & ? & _); [discriminate|exact I].
Qed.

Theorem root_fuel dbg s : root dbg s <> ROof.
Proof.
  unfold root. set (n := S (length (rest s))).
  assert (H : run dbg (run_instr dbg n) (GRep (GRetryOnce module [])) s <> ROof).
  { apply (run_fuel dbg (run_instr dbg n) (run_instr_sound dbg n) n).
    - intros s' Hs'. now apply run_instr_fuel.
    - apply module_wf.
    - apply module_wf_tok.
    - subst n. lia.
    - right. subst n. lia. }
  destruct (run dbg _ _ s) as [o1 s1|e s1| |]; try congruence.
  assert (rep_loop dbg (root_item dbg) (S (length (rest s1))) s1 <> ROof).
  { apply (rep_loop_fuel dbg); [|intros; apply root_item_fuel|lia].
    intros s' o s2 E. apply root_item_consumes in E. lia. }
  destruct (rep_loop _ _ _ s1); congruence.
Qed.

Theorem root_release_safe s : root false s <> RPanic.
Proof.
  unfold root.
  pose proof (run_safe (run_instr false (S (length (rest s)))) (run_instr_safe _)
    (GRep (GRetryOnce module [])) s module_wf_tok) as H.
  destruct (run false _ _ s) as [o1 s1|e s1| |]; try congruence.
  pose proof (rep_loop_safe (root_item false) (S (length (rest s1))) s1) as H2.
  assert (H3 : forall s', root_item false s' <> RPanic).
  { intros s'. unfold root_item. pose proof (trivias_release_safe (rest s')) as Ht.
    unfold trivias in Ht. cbn [trivias_loop] in Ht.
    destruct (trivia1 false (rest s')); try congruence.
    destruct (error_token true (rest s')); congruence. }
  specialize (H2 H3). destruct (rep_loop _ _ _ s1); congruence.
Qed.

(** [parse], fully decomposed. *)
Theorem parse_spec dbg src tree errs :
  parse dbg src = Parsed tree errs ->
  exists o1 s1 o2 s2,
    tree = Node ROOT (o1 ++ o2)
    /\ Ev dbg instr_body (GRep (GRetryOnce module [])) (mk_st src 0 []) (ROk o1 s1)
    /\ rep_loop dbg (root_item dbg) (S (length (rest s1))) s1 = ROk o2 s2
    /\ errs = rev (match rest s2 with
                   | [] => log s2
                   | r => err_at_end err_new (pos s2 + tlen r) :: log s2
                   end).
Proof.
  unfold parse. destruct (root dbg (mk_st src 0 [])) as [o s|e s| |] eqn:E; try congruence.
  apply root_spec in E as (o1 & s1 & o2 & s2 & Heq & H1 & H2); [|exact I].
  injection Heq as -> ->. intros H. injection H as <- <-. eauto 10.
Qed.

Theorem parse_release_total src : exists tree errs, parse false src = Parsed tree errs.
Proof.
  unfold parse. pose proof (root_fuel false (mk_st src 0 [])).
  pose proof (root_release_safe (mk_st src 0 [])).
  destruct (root false (mk_st src 0 [])) as [o s|e s| |] eqn:E; try congruence.
  - eauto.
  - apply root_spec in E as (o1 & s1 & o2 & s2 & Heq & _); [discriminate|exact I].
Qed.

Theorem parse_terminates dbg src : parse dbg src <> ParseOof.
Proof.
  unfold parse. pose proof (root_fuel dbg (mk_st src 0 [])).
  destruct (root dbg (mk_st src 0 [])); congruence.
Qed.
