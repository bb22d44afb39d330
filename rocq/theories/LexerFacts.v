(** Facts about the token parsers of [Lexer]: every parser splits its input,
    makes progress where it must, and never runs out of fuel. *)

From Coq Require Import String List NArith Bool Arith Lia.
From Verif Require Import Text Kind Green SpecParser Lexer.
Import ListNotations.

(** ** Splitting *)

Definition lex_split (l : lex) : Prop :=
  forall t, match l t with LOk c r | LErr c r => t = c ++ r end.

(** Success consumes at least one character. *)
Definition lex_pos (l : lex) : Prop :=
  forall t c r, l t = LOk c r -> c <> [].

Lemma l_lit_split s : lex_split (l_lit s).
Proof.
  intros t. unfold l_lit. destruct (strip_prefix s t) eqn:E; [|reflexivity].
  now apply strip_prefix_spec.
Qed.

Lemma l_one_split p : lex_split (l_one p).
Proof. intros [|c r]; simpl; [reflexivity|]. destruct (p c); reflexivity. Qed.

Lemma span_app p t : t = fst (span p t) ++ snd (span p t).
Proof.
  induction t as [|c r IH]; [reflexivity|]. simpl.
  destruct (p c); [|reflexivity]. destruct (span p r) as [a b] eqn:E. simpl in *. now rewrite IH at 1.
Qed.

Lemma span_all p t : Forall (fun c => p c = true) (fst (span p t)).
Proof.
  induction t as [|c r IH]; simpl; [constructor|].
  destruct (p c) eqn:E; simpl; [|constructor].
  destruct (span p r) as [a b]. simpl in *. constructor; assumption.
Qed.

Lemma span_stop p t c r : snd (span p t) = c :: r -> p c = false.
Proof.
  induction t as [|d t IH]; simpl; [congruence|].
  destruct (p d) eqn:E.
  - destruct (span p t) as [a b]. simpl in *. exact IH.
  - simpl. intros H. injection H as -> _. assumption.
Qed.

Lemma l_while_split p : lex_split (l_while p).
Proof.
  intros t. unfold l_while. pose proof (span_app p t) as H.
  destruct (span p t) as [a b]. exact H.
Qed.

Lemma l_while1_split p : lex_split (l_while1 p).
Proof.
  intros t. unfold l_while1. pose proof (span_app p t) as H.
  destruct (span p t) as [[|x a] b]; [reflexivity|exact H].
Qed.

Lemma lprefix_split c r x :
  (match x with LOk c2 r2 | LErr c2 r2 => r = c2 ++ r2 end) ->
  match lprefix c x with LOk c2 r2 | LErr c2 r2 => c ++ r = c2 ++ r2 end.
Proof. destruct x; simpl; intros ->; now rewrite app_assoc. Qed.

Lemma l_seq_split a b : lex_split a -> lex_split b -> lex_split (l_seq a b).
Proof.
  intros Ha Hb t. unfold l_seq. specialize (Ha t).
  destruct (a t) as [c r|c r]; [|exact Ha]. subst t.
  apply lprefix_split. apply Hb.
Qed.

Lemma l_empty_split : lex_split l_empty.
Proof. intros t. reflexivity. Qed.

Lemma l_opt_split a : lex_split a -> lex_split (l_opt a).
Proof. intros Ha t. unfold l_opt. specialize (Ha t). destruct (a t); auto. Qed.

Lemma l_alt_split a b : lex_split a -> lex_split b -> lex_split (l_alt a b).
Proof. intros Ha Hb t. unfold l_alt. specialize (Ha t). destruct (a t); [exact Ha|apply Hb]. Qed.

Lemma l_peek_split a : lex_split (l_peek a).
Proof. intros t. unfold l_peek. destruct (a t); reflexivity. Qed.

Lemma l_verify_split a p : lex_split a -> lex_split (l_verify a p).
Proof.
  intros Ha t. unfold l_verify. specialize (Ha t). destruct (a t); [|exact Ha].
  destruct (p c); auto.
Qed.

Lemma l_eof_split : lex_split l_eof.
Proof. intros [|c t]; reflexivity. Qed.

Lemma str_scan_split m : lex_split (str_scan m).
Proof.
  intros t. revert m. induction t as [|c t IH]; intros m.
  - destruct m; reflexivity.
  - destruct m; simpl;
      repeat match goal with |- context [if ?b then _ else _] => destruct b end;
      try reflexivity; apply (lprefix_split [c] t), IH.
Qed.

Lemma till_line_ending_split : lex_split till_line_ending.
Proof.
  intros t. unfold till_line_ending.
  pose proof (span_app (fun c => negb (N.eqb c c_cr || N.eqb c c_lf)) t) as H.
  destruct (span _ t) as [a b]. simpl in H. destruct (_ && _); exact H.
Qed.

Create HintDb lexs.
#[export] Hint Resolve l_lit_split l_one_split l_while_split l_while1_split l_seq_split
  l_empty_split l_opt_split l_alt_split l_peek_split l_verify_split l_eof_split
  str_scan_split till_line_ending_split : lexs.

Lemma word_split : lex_split word.
Proof. unfold word; auto with lexs. Qed.
Lemma ws_split : lex_split ws.
Proof. unfold ws; auto with lexs. Qed.
Lemma line_comment_split : lex_split line_comment.
Proof. unfold line_comment; auto with lexs. Qed.
Lemma ident_l_split : lex_split ident_l.
Proof. unfold ident_l; auto with lexs. Qed.
Lemma string_l_split : lex_split string_l.
Proof. unfold string_l, line_ending; auto 10 with lexs. Qed.
Lemma unsigned_hex_split : lex_split unsigned_hex.
Proof. unfold unsigned_hex; auto with lexs. Qed.
Lemma unsigned_dec_split : lex_split unsigned_dec.
Proof. unfold unsigned_dec; auto with lexs. Qed.
#[export] Hint Resolve word_split ws_split line_comment_split ident_l_split string_l_split
  unsigned_hex_split unsigned_dec_split : lexs.

Lemma unsigned_int_l_split : lex_split unsigned_int_l.
Proof.
  unfold unsigned_int_l. apply l_verify_split. intros t.
  destruct (strip_prefix (T "0x") t) as [r|] eqn:E.
  - apply strip_prefix_spec in E. rewrite E. apply lprefix_split. apply unsigned_hex_split.
  - apply unsigned_dec_split.
Qed.
#[export] Hint Resolve unsigned_int_l_split : lexs.
Lemma not_id_next_split : lex_split not_id_next.
Proof. unfold not_id_next; auto with lexs. Qed.
#[export] Hint Resolve not_id_next_split : lexs.
Lemma int_l_split : lex_split int_l.
Proof. unfold int_l; auto with lexs. Qed.
Lemma float_l_split : lex_split float_l.
Proof. unfold float_l; auto 20 with lexs. Qed.
Lemma mem_arg_l_split : lex_split mem_arg_l.
Proof. unfold mem_arg_l; auto with lexs. Qed.
#[export] Hint Resolve int_l_split float_l_split mem_arg_l_split : lexs.

Lemma error_token_split b : lex_split (error_token b).
Proof.
  intros [|c t]; [reflexivity|]. unfold error_token.
  destruct (N.eqb c c_dollar).
  { apply l_seq_split; auto with lexs. }
  destruct (N.eqb c c_lparen || N.eqb c c_rparen).
  { destruct b; [|reflexivity]. apply l_alt_split; auto with lexs. }
  destruct (N.eqb c c_quote); [apply string_l_split|].
  destruct (is_id_char c); apply l_while1_split.
Qed.
#[export] Hint Resolve error_token_split : lexs.

(** ** Progress *)

Lemma l_lit_pos s : s <> [] -> lex_pos (l_lit s).
Proof.
  intros Hs t c r. unfold l_lit. destruct (strip_prefix s t); [|congruence].
  intros H; injection H as <- _. exact Hs.
Qed.
Lemma l_one_pos p : lex_pos (l_one p).
Proof. intros [|x t] c r; simpl; [congruence|]. destruct (p x); congruence. Qed.
Lemma l_while1_pos p : lex_pos (l_while1 p).
Proof. intros t c r. unfold l_while1. destruct (span p t) as [[|x a] b]; congruence. Qed.
Lemma lprefix_ok c x c2 r : lprefix c x = LOk c2 r -> exists c', x = LOk c' r /\ c2 = c ++ c'.
Proof. destruct x; simpl; intros H; [|congruence]. injection H as <- <-. eauto. Qed.
Lemma l_seq_ok a b t c r :
  l_seq a b t = LOk c r ->
  exists c1 r1 c2, a t = LOk c1 r1 /\ b r1 = LOk c2 r /\ c = c1 ++ c2.
Proof.
  unfold l_seq. destruct (a t) as [c1 r1|]; [|congruence]. intros H.
  apply lprefix_ok in H as (c2 & H & ->). eauto 6.
Qed.
Lemma l_seq_pos_l a b : lex_pos a -> lex_pos (l_seq a b).
Proof.
  intros Ha t c r H. apply l_seq_ok in H as (c1 & r1 & c2 & H1 & _ & ->).
  apply Ha in H1. destruct c1; simpl; congruence.
Qed.
Lemma l_seq_pos_r a b : lex_pos b -> lex_pos (l_seq a b).
Proof.
  intros Hb t c r H. apply l_seq_ok in H as (c1 & r1 & c2 & _ & H2 & ->).
  apply Hb in H2. destruct c1; simpl; congruence.
Qed.
Lemma l_alt_pos a b : lex_pos a -> lex_pos b -> lex_pos (l_alt a b).
Proof.
  intros Ha Hb t c r. unfold l_alt. destruct (a t) eqn:E; [|apply Hb].
  intros H; injection H as <- <-. eapply Ha; eauto.
Qed.
Lemma l_verify_ok a p t c r : l_verify a p t = LOk c r <-> a t = LOk c r /\ p c = true.
Proof.
  unfold l_verify. destruct (a t) as [c' r'|c' r'].
  - destruct (p c') eqn:E; split.
    + intros H; injection H as <- <-. auto.
    + intros [H _]; exact H.
    + congruence.
    + intros [H H']; injection H as <- <-; congruence.
  - split; [congruence|intros []; congruence].
Qed.
Lemma l_verify_pos a p : lex_pos a -> lex_pos (l_verify a p).
Proof. intros Ha t c r H. apply l_verify_ok in H as [H _]. eapply Ha; eauto. Qed.

Lemma T_nonempty a s : T (String a s) <> [].
Proof. simpl. congruence. Qed.

Lemma word_pos : lex_pos word.
Proof. apply l_seq_pos_l, l_one_pos. Qed.
Lemma ident_l_pos : lex_pos ident_l.
Proof. apply l_seq_pos_l, l_lit_pos; congruence. Qed.
Lemma string_l_pos : lex_pos string_l.
Proof. apply l_seq_pos_l, l_lit_pos; congruence. Qed.
Lemma unsigned_hex_pos : lex_pos unsigned_hex.
Proof. apply l_seq_pos_l, l_one_pos. Qed.
Lemma unsigned_dec_pos : lex_pos unsigned_dec.
Proof. apply l_seq_pos_l, l_one_pos. Qed.
Lemma unsigned_int_l_pos : lex_pos unsigned_int_l.
Proof.
  apply l_verify_pos. intros t c r. destruct (strip_prefix (T "0x") t).
  - intros H. apply lprefix_ok in H as (c' & _ & ->). simpl. congruence.
  - apply unsigned_dec_pos.
Qed.
Lemma int_l_pos : lex_pos int_l.
Proof. apply l_seq_pos_r, l_seq_pos_l, unsigned_int_l_pos. Qed.
Lemma float_l_pos : lex_pos float_l.
Proof.
  apply l_verify_pos, l_seq_pos_r, l_seq_pos_l.
  repeat apply l_alt_pos.
  - apply l_seq_pos_l, l_lit_pos, T_nonempty.
  - do 2 apply l_seq_pos_l. apply unsigned_dec_pos.
  - apply l_lit_pos, T_nonempty.
  - apply l_seq_pos_l, l_lit_pos, T_nonempty.
Qed.
Lemma mem_arg_l_pos : lex_pos mem_arg_l.
Proof. apply l_seq_pos_l, l_alt_pos; apply l_lit_pos, T_nonempty. Qed.

Lemma error_token_pos b : lex_pos (error_token b).
Proof.
  intros [|x t] c r; [simpl; congruence|]. unfold error_token.
  destruct (N.eqb x c_dollar).
  { apply (l_seq_pos_l (l_lit [c_dollar])). apply l_lit_pos; congruence. }
  destruct (N.eqb x c_lparen || N.eqb x c_rparen).
  { destruct b; [|congruence]. apply l_alt_pos; apply l_lit_pos; congruence. }
  destruct (N.eqb x c_quote); [apply string_l_pos|].
  destruct (is_id_char x); apply l_while1_pos.
Qed.

(** ** Block comments *)

Lemma until_comment_delim_spec t a r :
  until_comment_delim t = Some (a, r) ->
  t = a ++ r /\ (starts_with (T "(;") r = true \/ starts_with (T ";)") r = true).
Proof.
  revert a r. induction t as [|c t IH]; intros a r; cbn [until_comment_delim].
  - destruct (_ || _) eqn:E; [|congruence]. intros H; injection H as <- <-.
    apply orb_prop in E. auto.
  - destruct (_ || _) eqn:E.
    + intros H; injection H as <- <-. apply orb_prop in E. auto.
    + destruct (until_comment_delim t) as [[a' b']|]; [|congruence].
      intros H; injection H as <- <-. destruct (IH _ _ eq_refl) as [-> H2]. auto.
Qed.

Lemma bc_loop_split dbg n t c r : bc_loop dbg n t = POk c r -> t = c ++ r.
Proof.
  revert t c r. induction n as [|n IH]; intros t c r; cbn [bc_loop]; [congruence|].
  destruct (strip_prefix (T ";)") t) as [r1|] eqn:E1.
  { intros H. injection H as <- <-. now apply strip_prefix_spec. }
  destruct (until_comment_delim t) as [[a t1]|] eqn:E2; [|congruence].
  apply until_comment_delim_spec in E2 as [-> _].
  assert (Hskip : match a with
                  | [] => if dbg then PPanic else PErr
                  | _ => match bc_loop dbg n t1 with
                         | POk c' r' => POk (a ++ c') r'
                         | x => x
                         end
                  end = POk c r -> a ++ t1 = c ++ r).
  { destruct a as [|x a]; [destruct dbg; congruence|].
    destruct (bc_loop dbg n t1) as [c' r'| | |] eqn:E; try congruence.
    intros H. injection H as <- <-. apply IH in E. rewrite E. simpl. rewrite <- ?app_assoc. reflexivity. }
  destruct (strip_prefix (T "(;") t1) as [t2|] eqn:E3; [|exact Hskip].
  destruct (bc_loop dbg n t2) as [c1 r1| | |] eqn:E4; try congruence; [|exact Hskip].
  destruct (bc_loop dbg n r1) as [c2 r2| | |] eqn:E5; try congruence.
  intros H. injection H as <- <-. apply strip_prefix_spec in E3. apply IH in E4, E5. subst.
  simpl. rewrite <- ?app_assoc. simpl. rewrite <- ?app_assoc. reflexivity.
Qed.

Lemma bc_loop_pos dbg n t c r : bc_loop dbg n t = POk c r -> 2 <= length c.
Proof.
  revert t c r. induction n as [|n IH]; intros t c r; cbn [bc_loop]; [congruence|].
  destruct (strip_prefix (T ";)") t) as [r1|] eqn:E1.
  { intros H. injection H as <- <-. simpl. lia. }
  destruct (until_comment_delim t) as [[a t1]|] eqn:E2; [|congruence].
  assert (Hskip : match a with
                  | [] => if dbg then PPanic else PErr
                  | _ => match bc_loop dbg n t1 with
                         | POk c' r' => POk (a ++ c') r'
                         | x => x
                         end
                  end = POk c r -> 2 <= length c).
  { destruct a as [|x a]; [destruct dbg; congruence|].
    destruct (bc_loop dbg n t1) as [c' r'| | |] eqn:E; try congruence.
    intros H. injection H as <- <-. apply IH in E. simpl. rewrite app_length. lia. }
  destruct (strip_prefix (T "(;") t1) as [t2|] eqn:E3; [|exact Hskip].
  destruct (bc_loop dbg n t2) as [c1 r1| | |] eqn:E4; try congruence; [|exact Hskip].
  destruct (bc_loop dbg n r1) as [c2 r2| | |] eqn:E5; try congruence.
  intros H. injection H as <- <-. apply IH in E5. repeat rewrite app_length. simpl. lia.
Qed.

Lemma bc_loop_fuel dbg n t : length t < n -> bc_loop dbg n t <> POof.
Proof.
  revert t. induction n as [|n IH]; intros t Hn; [lia|]. cbn [bc_loop].
  destruct (strip_prefix (T ";)") t) as [r1|] eqn:E1; [congruence|].
  destruct (until_comment_delim t) as [[a t1]|] eqn:E2; [|congruence].
  apply until_comment_delim_spec in E2 as [-> _]. rewrite app_length in Hn.
  assert (Hskip : match a with
                  | [] => if dbg then PPanic else PErr
                  | _ => match bc_loop dbg n t1 with
                         | POk c' r' => POk (a ++ c') r'
                         | x => x
                         end
                  end <> @POof text).
  { destruct a as [|x a]; [destruct dbg; congruence|]. simpl in Hn.
    pose proof (IH t1 ltac:(lia)). destruct (bc_loop dbg n t1); congruence. }
  destruct (strip_prefix (T "(;") t1) as [t2|] eqn:E3; [|exact Hskip].
  apply strip_prefix_spec in E3. subst t1. rewrite app_length in Hn. simpl in Hn.
  pose proof (IH t2 ltac:(lia)) as H2.
  destruct (bc_loop dbg n t2) as [c1 r1| | |] eqn:E4; try congruence; [|exact Hskip].
  apply bc_loop_split in E4. subst t2. rewrite app_length in Hn.
  pose proof (IH r1 ltac:(lia)). destruct (bc_loop dbg n r1); congruence.
Qed.

(** More fuel never changes a result that did not run out of fuel. *)
Lemma bc_loop_mono dbg n m t :
  n <= m -> bc_loop dbg n t <> POof -> bc_loop dbg m t = bc_loop dbg n t.
Proof.
  revert m t. induction n as [|n IH]; intros m t Hle Hne; [simpl in Hne; congruence|].
  destruct m as [|m]; [lia|]. cbn [bc_loop] in *.
  destruct (strip_prefix (T ";)") t) as [r1|]; [reflexivity|].
  destruct (until_comment_delim t) as [[a t1]|]; [|reflexivity].
  destruct (strip_prefix (T "(;") t1) as [t2|].
  - destruct (bc_loop dbg n t2) as [c1 r1| | |] eqn:E4; try congruence.
    + rewrite (IH m t2), E4 by (lia || congruence).
      destruct (bc_loop dbg n r1) as [c2 r2| | |] eqn:E5; try congruence;
        rewrite (IH m r1), E5 by (lia || congruence); reflexivity.
    + rewrite (IH m t2), E4 by (lia || congruence).
      destruct a; [reflexivity|].
      destruct (bc_loop dbg n t1) as [c2 r2| | |] eqn:E5; try congruence;
        rewrite (IH m t1), E5 by (lia || congruence); reflexivity.
    + rewrite (IH m t2), E4 by (lia || congruence). reflexivity.
  - destruct a; [reflexivity|].
    destruct (bc_loop dbg n t1) as [c2 r2| | |] eqn:E5; try congruence;
      rewrite (IH m t1), E5 by (lia || congruence); reflexivity.
Qed.

Lemma block_comment_split dbg t c r : block_comment dbg t = POk c r -> t = c ++ r.
Proof.
  unfold block_comment. destruct (strip_prefix (T "(;") t) as [t1|] eqn:E; [|congruence].
  apply strip_prefix_spec in E.
  destruct (bc_loop dbg (S (length t1)) t1) as [c1 r1| | |] eqn:E2; try congruence.
  intros H. injection H as <- <-. apply bc_loop_split in E2. subst. reflexivity.
Qed.

Lemma block_comment_pos dbg t c r : block_comment dbg t = POk c r -> c <> [].
Proof.
  unfold block_comment. destruct (strip_prefix (T "(;") t) as [t1|] eqn:E; [|congruence].
  destruct (bc_loop dbg (S (length t1)) t1) as [c1 r1| | |] eqn:E2; try congruence.
  intros H. injection H as <- <-. simpl. congruence.
Qed.

Lemma block_comment_fuel dbg t : block_comment dbg t <> POof.
Proof.
  unfold block_comment. destruct (strip_prefix (T "(;") t) as [t1|] eqn:E; [|congruence].
  pose proof (bc_loop_fuel dbg (S (length t1)) t1 ltac:(lia)).
  destruct (bc_loop dbg (S (length t1)) t1); congruence.
Qed.

(** ** Trivia *)

Lemma ws_form t c r : ws t = LOk c r -> LexForm WHITESPACE c.
Proof.
  unfold ws, l_while1. pose proof (span_all is_multispace t) as H.
  destruct (span is_multispace t) as [[|x a] b]; [congruence|].
  intros H1. injection H1 as <- <-. split; [congruence|]. eapply Forall_impl; [|exact H].
  intros y Hy. unfold is_multispace in Hy.
  repeat (apply orb_prop in Hy as [Hy|Hy]); apply N.eqb_eq in Hy; subst; simpl; auto.
Qed.
Lemma line_comment_form t c r : line_comment t = LOk c r -> LexForm LINE_COMMENT c.
Proof.
  unfold line_comment. intros H. apply l_seq_ok in H as (c1 & r1 & c2 & H1 & H2 & ->).
  exists c2. split.
  - f_equal. unfold l_lit in H1. destruct (strip_prefix _ t); congruence.
  - unfold till_line_ending in H2.
    match goal with H : context [span ?p r1] |- _ => pose proof (span_all p r1) as Ha;
      destruct (span p r1) as [a b] end.
    destruct (_ && _); [congruence|]. injection H2 as <- <-. simpl in Ha.
    eapply Forall_impl; [|exact Ha]. intros y Hy. simpl in Hy. apply negb_true_iff in Hy.
    apply orb_false_elim in Hy as [? ?].
    split; intros ->; rewrite N.eqb_refl in *; discriminate.
Qed.
(** No delimiter starts inside [a] when [y] comes next. *)
Fixpoint nodelim (a : text) (y : text) : Prop :=
  match a with
  | [] => True
  | x :: a' => starts_with (T "(;") (x :: a' ++ y) = false /\ starts_with (T ";)") (x :: a' ++ y) = false
               /\ nodelim a' y
  end.
Lemma until_comment_delim_none t a r : until_comment_delim t = Some (a, r) -> nodelim a r.
Proof.
  revert a r. induction t as [|c t IH]; intros a r; cbn [until_comment_delim].
  - destruct (_ || _); [|congruence]. intros H; injection H as <- <-. exact I.
  - destruct (_ || _) eqn:E.
    + intros H; injection H as <- <-. exact I.
    + destruct (until_comment_delim t) as [[a' b']|] eqn:E2; [|congruence].
      intros H; injection H as <- <-. apply until_comment_delim_spec in E2 as [-> _].
      apply orb_false_elim in E as [E1 E2]. cbn [nodelim]. auto.
Qed.
Lemma starts_two p q x y z z' : starts_with [p; q] (x :: y :: z) = starts_with [p; q] (x :: y :: z').
Proof. unfold starts_with. cbn [strip_prefix]. destruct (N.eqb p x); [|reflexivity]. destruct (N.eqb q y); reflexivity. Qed.
Lemma nodelim_body a y r m r' :
  nodelim a (y :: r) -> m ++ T ";)" = y :: r' -> CommentBody m -> CommentBody (a ++ m).
Proof.
  intros H E Hm. induction a as [|x a IH]; [exact Hm|]. destruct H as (H1 & H2 & H3).
  cbn [app]. apply CB_char; [|auto]. intros d z Hd Hz.
  assert (E2 : forall p q, starts_with [p; q] (x :: a ++ y :: r) = starts_with [p; q] (x :: (a ++ m) ++ T ";)")).
  { intros p q. rewrite <- app_assoc, E. destruct a as [|x2 a]; cbn [app]; apply starts_two. }
  change (starts_with [40%N; 59%N] (x :: a ++ y :: r) = false) in H1.
  change (starts_with [59%N; 41%N] (x :: a ++ y :: r) = false) in H2.
  rewrite E2 in H1, H2. change (x :: (a ++ m) ++ T ";)" = d ++ z) in Hz.
  rewrite Hz in H1, H2. destruct Hd as [<-|[<-|[]]].
  - discriminate H1.
  - discriminate H2.
Qed.
Lemma starts_split p t : starts_with p t = true -> exists r, t = p ++ r.
Proof.
  unfold starts_with. destruct (strip_prefix p t) as [r|] eqn:E; [|discriminate]. intros _.
  exists r. now apply strip_prefix_spec in E.
Qed.
Lemma bc_loop_body dbg n t c r : bc_loop dbg n t = POk c r -> exists m, c = m ++ T ";)" /\ CommentBody m.
Proof.
  revert t c r. induction n as [|n IH]; intros t c r; cbn [bc_loop]; [congruence|].
  destruct (strip_prefix (T ";)") t) as [t1|].
  { intros H. injection H as <- <-. exists []. split; [reflexivity|constructor]. }
  destruct (until_comment_delim t) as [[a t1]|] eqn:Eu; [|congruence].
  pose proof (until_comment_delim_none _ _ _ Eu) as Hn. apply until_comment_delim_spec in Eu as [_ Hd].
  destruct (strip_prefix (T "(;") t1) as [t2|] eqn:Es.
  - apply strip_prefix_spec in Es as Et. 
    destruct (bc_loop dbg n t2) as [c1 r1| | |] eqn:E1; try congruence.
    + destruct (bc_loop dbg n r1) as [c2 r2| | |] eqn:E2; try congruence.
      intros H. injection H as <- <-. destruct (IH _ _ _ E1) as (m1 & -> & B1).
      destruct (IH _ _ _ E2) as (m2 & -> & B2).
      exists (a ++ (T "(;" ++ m1 ++ T ";)" ++ m2)). split; [now rewrite <- !app_assoc|].
      rewrite Et in Hn.
      eapply nodelim_body; [exact Hn|reflexivity|now apply CB_nest].
    + destruct a as [|x a]; [destruct dbg; congruence|].
      destruct (bc_loop dbg n t1) as [c2 r2| | |] eqn:E2; try congruence.
      intros _. exfalso. revert E2. destruct n as [|n]; cbn [bc_loop]; [congruence|].
      assert (E3 : strip_prefix (T ";)") t1 = None) by (rewrite Et; reflexivity).
      assert (E4 : until_comment_delim t1 = Some ([], t1)) by (rewrite Et; reflexivity).
      rewrite E3, E4, Es.
      assert (E5 : bc_loop dbg n t2 = PErr \/ bc_loop dbg n t2 = POof).
      { destruct (bc_loop dbg n t2) eqn:E5; auto;
          rewrite (bc_loop_mono dbg n (S n) t2) in E1 by (lia || congruence); congruence. }
      destruct E5 as [->| ->]; [|congruence]. destruct dbg; congruence.
  - destruct a as [|x a]; [destruct dbg; congruence|].
    destruct (bc_loop dbg n t1) as [c2 r2| | |] eqn:E2; try congruence.
    intros H. injection H as <- <-. destruct (IH _ _ _ E2) as (m & -> & B).
    exists ((x :: a) ++ m). split; [now rewrite <- app_assoc|].
    destruct Hd as [Hd|Hd]; [unfold starts_with in Hd; rewrite Es in Hd; discriminate|].
    apply starts_split in Hd as (z & ->).
    pose proof (bc_loop_split _ _ _ _ _ E2) as E3.
    destruct (m ++ T ";)") as [|y q] eqn:Em; [destruct m; discriminate|].
    apply (f_equal (hd 0%N)) in E3. cbn in E3. subst y. eapply nodelim_body; [exact Hn|exact Em|exact B].
Qed.
Lemma block_comment_form dbg t c r : block_comment dbg t = POk c r -> LexForm BLOCK_COMMENT c.
Proof.
  unfold block_comment. destruct (strip_prefix (T "(;") t) as [t1|]; [|congruence].
  destruct (bc_loop dbg (S (length t1)) t1) as [c1 r1| | |] eqn:E; try congruence.
  intros H. injection H as <- <-. destruct (bc_loop_body _ _ _ _ _ E) as (m & -> & B). exists m. auto.
Qed.

Definition is_trivia_tok (g : green) : Prop :=
  match g with Tok k t => is_trivia_kind k = true /\ t <> [] /\ LexForm k t | Node _ _ => False end.

Lemma trivia1_spec dbg t g r :
  trivia1 dbg t = POk g r -> t = gtext g ++ r /\ is_trivia_tok g.
Proof.
  unfold trivia1. pose proof (ws_split t) as H1.
  destruct (ws t) as [c1 r1|c1 r1] eqn:E1.
  { intros H. injection H as <- <-. simpl. split; [exact H1|split; [reflexivity|split; [|eapply ws_form; eauto]]].
    eapply l_while1_pos; eauto. }
  pose proof (line_comment_split t) as H2.
  destruct (line_comment t) as [c2 r2|c2 r2] eqn:E2.
  { intros H. injection H as <- <-. simpl. split; [exact H2|split; [reflexivity|split; [|eapply line_comment_form; eauto]]].
    eapply (l_seq_pos_l (l_lit (T ";;"))); eauto. apply l_lit_pos, T_nonempty. }
  destruct (block_comment dbg t) as [c3 r3| | |] eqn:E3; try congruence.
  intros H. injection H as <- <-. simpl. split; [now apply block_comment_split in E3|].
  split; [reflexivity|]. split; [eapply block_comment_pos; eauto|eapply block_comment_form; eauto].
Qed.

Lemma trivia1_fuel dbg t : trivia1 dbg t <> POof.
Proof.
  unfold trivia1. destruct (ws t); [congruence|]. destruct (line_comment t); [congruence|].
  pose proof (block_comment_fuel dbg t). destruct (block_comment dbg t); congruence.
Qed.

Lemma trivia1_length dbg t g r : trivia1 dbg t = POk g r -> length r < length t.
Proof.
  intros H. apply trivia1_spec in H as [-> H]. rewrite app_length.
  destruct g as [k x|]; simpl in *; [|contradiction].
  destruct H as (_ & H & _). destruct x; [congruence|simpl; lia].
Qed.

Lemma trivias_loop_spec dbg n t l r :
  trivias_loop dbg n t = POk l r ->
  t = gtexts l ++ r /\ Forall is_trivia_tok l /\ trivia1 dbg r = PErr.
Proof.
  revert t l r. induction n as [|n IH]; intros t l r; cbn [trivias_loop]; [congruence|].
  destruct (trivia1 dbg t) as [g r1| | |] eqn:E; try congruence.
  - destruct (trivias_loop dbg n r1) as [l2 r2| | |] eqn:E2; try congruence.
    intros H. injection H as <- <-. apply IH in E2 as (-> & Hl & Hr).
    apply trivia1_spec in E as [-> Hg]. rewrite gtexts_cons, <- app_assoc. auto.
  - intros H. injection H as <- <-. auto.
Qed.

Lemma trivias_loop_fuel dbg n t : length t < n -> trivias_loop dbg n t <> POof.
Proof.
  revert t. induction n as [|n IH]; intros t Hn; [lia|]. cbn [trivias_loop].
  pose proof (trivia1_fuel dbg t).
  destruct (trivia1 dbg t) as [g r1| | |] eqn:E; try congruence.
  apply trivia1_length in E. pose proof (IH r1 ltac:(lia)).
  destruct (trivias_loop dbg n r1); congruence.
Qed.

Lemma trivias_loop_not_err dbg n t : trivias_loop dbg n t <> PErr.
Proof.
  revert t. induction n as [|n IH]; intros t; cbn [trivias_loop]; [congruence|].
  destruct (trivia1 dbg t) as [g r1| | |]; try congruence.
  specialize (IH r1). destruct (trivias_loop dbg n r1); congruence.
Qed.

Lemma trivias_spec dbg t l r :
  trivias dbg t = POk l r ->
  t = gtexts l ++ r /\ Forall is_trivia_tok l /\ trivia1 dbg r = PErr.
Proof. apply trivias_loop_spec. Qed.
Lemma trivias_fuel dbg t : trivias dbg t <> POof.
Proof. apply trivias_loop_fuel. lia. Qed.
Lemma trivias_not_err dbg t : trivias dbg t <> PErr.
Proof. apply trivias_loop_not_err. Qed.

Lemma trivias_length dbg t l r : trivias dbg t = POk l r -> length r <= length t.
Proof. intros H. apply trivias_spec in H as [-> _]. rewrite app_length. lia. Qed.

(** ** Error terms *)

(** Elements of an error term: trivia and ERROR tokens. *)
Definition is_error_tok (g : green) : Prop :=
  match g with Tok k t => k = ERROR /\ t <> [] | Node _ _ => False end.

Lemma opt_rparen_error_spec t l r :
  opt_rparen_error t = (l, r) -> t = gtexts l ++ r /\ Forall is_error_tok l.
Proof.
  destruct t as [|c t]; simpl.
  - intros H. injection H as <- <-. auto.
  - destruct (N.eqb_spec c c_rparen) as [->|_]; intros H; injection H as <- <-; [|auto].
    split; [reflexivity|]. constructor; [|constructor]. simpl. split; congruence.
Qed.

Lemma et_loop_spec dbg n t l r :
  et_loop dbg n t = POk l r ->
  t = gtexts l ++ r /\ Forall (fun g => is_trivia_tok g \/ is_error_tok g) l.
Proof.
  revert t l r. induction n as [|n IH]; intros t l r; cbn [et_loop]; [congruence|].
  destruct (trivias dbg t) as [tr t1| | |] eqn:E; try congruence.
  apply trivias_spec in E as (-> & Htr & _).
  assert (Htr' : Forall (fun g => is_trivia_tok g \/ is_error_tok g) tr)
    by (eapply Forall_impl; [|exact Htr]; auto).
  destruct (strip_prefix (T "(") t1) as [t2|] eqn:E1.
  - apply strip_prefix_spec in E1. subst t1.
    destruct (et_loop dbg n t2) as [items t3| | |] eqn:E2; try congruence.
    apply IH in E2 as [-> Hi].
    destruct (opt_rparen_error t3) as [rp t4] eqn:E3.
    apply opt_rparen_error_spec in E3 as [-> Hrp].
    destruct (et_loop dbg n t4) as [more t5| | |] eqn:E4; try congruence.
    apply IH in E4 as [-> Hm].
    intros H. injection H as <- <-. split.
    + rewrite !gtexts_app, !gtexts_cons, !gtexts_app.
      cbn [gtext T]. rewrite <- !app_assoc. reflexivity.
    + apply Forall_app; split; [exact Htr'|]. constructor.
      { right. simpl. split; congruence. }
      apply Forall_app; split; [|exact Hm]. apply Forall_app; split; [exact Hi|].
      eapply Forall_impl; [|exact Hrp]; auto.
  - destruct (error_token false t1) as [c r1|c r1] eqn:E2.
    + destruct (et_loop dbg n r1) as [more t5| | |] eqn:E4; try congruence.
      apply IH in E4 as [-> Hm]. pose proof (error_token_split false t1) as Hs.
      rewrite E2 in Hs. subst t1. intros H. injection H as <- <-. split.
      * rewrite gtexts_app, gtexts_cons. cbn [gtext]. rewrite <- !app_assoc. reflexivity.
      * apply Forall_app; split; [exact Htr'|]. constructor; [|exact Hm].
        right. simpl. split; [reflexivity|]. eapply error_token_pos; eauto.
    + intros H. injection H as <- <-. auto.
Qed.

Lemma et_loop_fuel dbg n t : length t < n -> et_loop dbg n t <> POof.
Proof.
  revert t. induction n as [|n IH]; intros t Hn; [lia|]. cbn [et_loop].
  pose proof (trivias_fuel dbg t) as Hf.
  destruct (trivias dbg t) as [tr t1| | |] eqn:E; try congruence.
  apply trivias_length in E.
  destruct (strip_prefix (T "(") t1) as [t2|] eqn:E1.
  - apply strip_prefix_spec in E1. subst t1. rewrite app_length in E; simpl in E.
    pose proof (IH t2 ltac:(lia)).
    destruct (et_loop dbg n t2) as [items t3| | |] eqn:E2; try congruence.
    apply et_loop_spec in E2 as [-> _]. rewrite app_length in E.
    destruct (opt_rparen_error t3) as [rp t4] eqn:E3.
    apply opt_rparen_error_spec in E3 as [-> _]. rewrite app_length in E.
    pose proof (IH t4 ltac:(lia)).
    destruct (et_loop dbg n t4); congruence.
  - destruct (error_token false t1) as [c r1|c r1] eqn:E2; [|congruence].
    pose proof (error_token_split false t1) as Hs. rewrite E2 in Hs.
    apply error_token_pos in E2. subst t1. rewrite app_length in E.
    destruct c as [|x c]; [congruence|]. simpl in E.
    pose proof (IH r1 ltac:(lia)). destruct (et_loop dbg n r1); congruence.
Qed.

Lemma et_loop_not_err dbg n t : et_loop dbg n t <> PErr.
Proof.
  revert t. induction n as [|n IH]; intros t; cbn [et_loop]; [congruence|].
  pose proof (trivias_not_err dbg t) as Hf.
  destruct (trivias dbg t) as [tr t1| | |]; try congruence.
  destruct (strip_prefix (T "(") t1) as [t2|].
  - pose proof (IH t2). destruct (et_loop dbg n t2) as [items t3| | |]; try congruence.
    destruct (opt_rparen_error t3) as [rp t4].
    pose proof (IH t4). destruct (et_loop dbg n t4); congruence.
  - destruct (error_token false t1) as [c r1|c r1]; [|congruence].
    pose proof (IH r1). destruct (et_loop dbg n r1); congruence.
Qed.

Lemma error_term_inner_spec dbg t l r :
  error_term_inner dbg t = POk l r ->
  t = gtexts l ++ r
  /\ Forall (fun g => is_trivia_tok g \/ is_error_tok g) l
  /\ exists l', l = Tok ERROR (T "(") :: l'.
Proof.
  unfold error_term_inner.
  destruct (strip_prefix (T "(") t) as [t1|] eqn:E; [|congruence].
  apply strip_prefix_spec in E. subst t.
  destruct (et_loop dbg (S (length t1)) t1) as [items t3| | |] eqn:E2; try congruence.
  apply et_loop_spec in E2 as [-> Hi].
  destruct (opt_rparen_error t3) as [rp t4] eqn:E3.
  apply opt_rparen_error_spec in E3 as [-> Hrp].
  intros H. injection H as <- <-. split; [|split; [|eauto]].
  - rewrite gtexts_cons, gtexts_app, <- !app_assoc. reflexivity.
  - constructor; [right; simpl; split; congruence|].
    apply Forall_app; split; [exact Hi|]. eapply Forall_impl; [|exact Hrp]; auto.
Qed.

Lemma error_term_inner_fuel dbg t : error_term_inner dbg t <> POof.
Proof.
  unfold error_term_inner. destruct (strip_prefix (T "(") t) as [t1|]; [|congruence].
  pose proof (et_loop_fuel dbg (S (length t1)) t1 ltac:(lia)).
  destruct (et_loop dbg (S (length t1)) t1) as [items t3| | |]; try congruence.
  destruct (opt_rparen_error t3). congruence.
Qed.

Lemma la_triv_not_oof f dbg t : (forall r, f r <> AOof) -> la_triv f dbg t <> AOof.
Proof.
  intros Hf. unfold la_triv. pose proof (trivias_fuel dbg t).
  destruct (trivias dbg t); congruence || apply Hf.
Qed.

Lemma error_term_spec dbg names t l r :
  error_term dbg names t = POk l r ->
  t = gtexts l ++ r
  /\ Forall (fun g => is_trivia_tok g \/ is_error_tok g) l
  /\ exists l', l = Tok ERROR (T "(") :: l'.
Proof.
  unfold error_term. destruct (la_triv _ dbg t); try congruence. apply error_term_inner_spec.
Qed.

Lemma error_term_fuel dbg names t : error_term dbg names t <> POof.
Proof.
  unfold error_term.
  match goal with |- context [la_triv ?f dbg t] => set (G := f) end.
  assert (HG : la_triv G dbg t <> AOof).
  { apply la_triv_not_oof. intros r. subst G. cbv beta.
    destruct (strip_prefix (T "(") r); [|congruence]. apply la_triv_not_oof.
    intros x. destruct (l_verify _ _ x); congruence. }
  destruct (la_triv G dbg t); try congruence. apply error_term_inner_fuel.
Qed.
