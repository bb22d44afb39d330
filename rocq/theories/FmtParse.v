(** Parses without errors meet the conditions of the theorems on the
    formatter, and what is printed in terms of tokens. *)

From Coq Require Import String List NArith Bool Arith Lia.
From Verif Require Import Text Kind Green SpecParser SpecSyntax Lexer LexerFacts Winnow Grammar Sem Lossless Total
  Bounds Lang TokForm Shape ThmParser SpecFormat Format FmtLang FmtPieces FmtSteps FmtTrivia FmtRun FmtNode FmtTree FmtDoc.
Import ListNotations.

Definition rule_not_root (r : kind * grammar) : bool := negb (kind_eqb (fst r) ROOT).
Lemma rules_not_root : forallb rule_not_root (node_rules module ++ node_rules instr_body) = true.
Proof. vm_compute. reflexivity. Qed.

(** No ROOT below the root. *)
Lemma parse_no_root dbg src cs c k cs' :
  parse dbg src = Parsed (Node ROOT cs) [] -> In c cs -> Sub c (Node k cs') -> k <> ROOT.
Proof.
  intros H Hin Hs. apply parse_flang in H as (o1 & o2 & s1 & s2 & n & E & HL & Hl).
  injection E as ->. apply in_app_or in Hin as [Hin|Hin].
  - destruct (FLang_rules _ all_tuc _ _ _ _ false _ _ _ HL (Fc_false _) module_tuc
      ltac:(discriminate) Hin Hs) as (a & _ & _ & Ha & _).
    change (node_rules (GRep (GRetryOnce module []))) with (node_rules module) in Ha.
    pose proof rules_not_root as R. rewrite forallb_forall in R. specialize (R _ Ha). unfold rule_not_root in R.
    cbn [fst] in R. intros ->. rewrite (proj2 (kind_eqb_eq ROOT ROOT) eq_refl) in R. discriminate.
  - exfalso. apply root_loop_spec in Hl as (o2' & s2' & Heq & _ & _ & Hf & _); [|exact I].
    injection Heq as <- <-. rewrite Forall_forall in Hf. apply Hf in Hin.
    destruct c; [inversion Hs|destruct Hin as [[]|[]]].
Qed.

Lemma parse_root dbg src tree errs : parse dbg src = Parsed tree errs -> exists cs, tree = Node ROOT cs.
Proof. intros H. apply parse_spec in H as (o1 & s1 & o2 & s2 & -> & _). eauto. Qed.

(** The conditions on a document. *)
Definition Fine (d : text) (g : green) : Prop :=
  (forall t, ~ In (ERROR, t) (gtokens g)) /\ Ordinary g /\ StringsClosed g /\ NoDirective d g.

Lemma gtokens_in k cs c p : In c cs -> In p (gtokens c) -> In p (gtokens (Node k cs)).
Proof.
  intros Hc Hp. cbn [gtokens]. apply in_concat. exists (gtokens c). split; [now apply in_map|exact Hp].
Qed.

Lemma parse_WF o dbg src cs c :
  parse dbg src = Parsed (Node ROOT cs) [] -> Fine (directive o) (Node ROOT cs) -> In c cs -> WF o c.
Proof.
  intros H (He & Ho & Hs & Hd) Hc. split.
  - intros k cs' Hsub. pose proof (parse_no_root _ _ _ _ _ _ H Hc Hsub) as Hk.
    assert (Hsub' : Sub (Node ROOT cs) (Node k cs')) by (apply Sub_child with c; auto).
    destruct (parse_trivia _ _ _ _ _ H Hsub' Hk) as (A & B & C). split; [exact Hk|]. auto.
  - intros k t Hin. apply (gtokens_in ROOT _ _ _ Hc) in Hin. repeat split.
    + intros ->. exact (He _ Hin).
    + exact (C07_token_forms _ _ _ _ _ _ H Hin).
    + intros ->. exact (Hs _ Hin).
    + intros ->. exact (Hd _ Hin).
Qed.

(** ** The tokens that are printed *)

Section Opts.
  Variable o : options.

  Lemma strip_prefix_app a b : strip_prefix a (a ++ b) = Some b.
  Proof. induction a as [|c a IH]; [reflexivity|]. cbn [app strip_prefix]. rewrite N.eqb_refl. apply IH. Qed.

  Lemma printed_leaf k t : k <> WHITESPACE -> LexForm k t ->
    exists u, leaf_texts o (k, t) = [u] /\ Printed (fix_comments o) (k, t) u.
  Proof.
    intros Hk Hf. unfold leaf_texts. cbn [fst snd]. destruct (fix_comments o) eqn:Ec.
    2:{ exists t. split; [|constructor]. destruct k; try reflexivity; try congruence.
        - unfold line_comment_text. now rewrite Ec.
        - unfold block_comment_text. now rewrite Ec. }
    destruct k; try (exists t; split; [reflexivity|constructor]); try congruence.
    - destruct Hf as (r & -> & _). eexists. split; [reflexivity|]. unfold line_comment_text. rewrite Ec, strip_prefix_app.
      destruct r as [|c r]; [constructor|]. destruct (starts_blank (c :: r)); [constructor|].
      now apply (P_line true (c :: r)).
    - destruct Hf as (m & -> & _). eexists. split; [reflexivity|]. unfold block_comment_text. rewrite Ec, strip_prefix_app, strip_suffix_app.
      destruct (nilb m || starts_blank m && ends_blank m) eqn:E1; [constructor|].
      destruct (starts_blank m).
      + apply (P_block true [] (Text.T " ") m eq_refl); cbn; auto.
      + destruct (ends_blank m).
        * apply (P_block true (Text.T " ") [] m eq_refl); cbn; auto.
        * apply (P_block true (Text.T " ") (Text.T " ") m eq_refl); cbn; auto.
  Qed.

  Lemma leaves_shown g : (forall k t, In (k, t) (gtokens g) -> LexForm k t) ->
    Forall2 (Printed (fix_comments o)) (shown g) (leaves o g).
  Proof.
    unfold shown, leaves. induction (gtokens g) as [|[k t] l IH]; intros H; cbn [filter flat_map fst]; [constructor|].
    assert (IH' := IH (fun k t Hin => H k t (or_intror Hin))).
    destruct (kind_eqb k WHITESPACE) eqn:Ek; cbn [negb].
    - apply kind_eqb_eq in Ek. subst k. exact IH'.
    - assert (Hk : k <> WHITESPACE) by (intros E; apply kind_eqb_eq in E; congruence).
      destruct (printed_leaf k t Hk (H k t (or_introl eq_refl))) as (u & Eu & Hu). rewrite Eu. now constructor.
  Qed.
End Opts.

(** [keep] removes white space and comments only. *)
Inductive Thin : list (kind * text) -> list (kind * text) -> Prop :=
| Thin_nil : Thin [] []
| Thin_same p a b : Thin a b -> Thin (p :: a) (p :: b)
| Thin_skip k t a b : is_trivia_kind k = true -> Thin a b -> Thin a ((k, t) :: b).

Lemma Thin_refl l : Thin l l.
Proof. induction l; constructor; auto. Qed.
Lemma Thin_app a b c d : Thin a b -> Thin c d -> Thin (a ++ c) (b ++ d).
Proof. intros H Hc. induction H; cbn [app]; try constructor; auto. Qed.
Lemma Thin_trans a b c : Thin a b -> Thin b c -> Thin a c.
Proof.
  intros H1 H2. revert a H1. induction H2; intros x H1; [exact H1| |].
  - inversion H1; subst; constructor; auto.
  - constructor; auto.
Qed.
Lemma Thin_in a b p : Thin a b -> In p a -> In p b.
Proof. induction 1; cbn; intuition. Qed.
Lemma Thin_filter a b (f : kind * text -> bool) : (forall k t, is_trivia_kind k = true -> f (k, t) = false) ->
  Thin a b -> filter f a = filter f b.
Proof.
  intros Hf. induction 1 as [|p a b _ IH|k t a b Hk _ IH]; [reflexivity| |]; cbn [filter].
  - now rewrite IH.
  - now rewrite (Hf k t Hk).
Qed.

Lemma gtokenss_cons g l : gtokenss (g :: l) = gtokens g ++ gtokenss l.
Proof. reflexivity. Qed.
Lemma trivial_thin g r : trivial g = true -> Thin r (gtokens g ++ r).
Proof.
  destruct g as [k t|]; [|discriminate]. unfold trivial. cbn [significant gtokens app]. rewrite negb_involutive.
  intros H. constructor; [exact H|apply Thin_refl].
Qed.
Lemma skip_thin l : Thin (gtokenss (skip_trivia l)) (gtokenss l).
Proof.
  induction l as [|g l IH]; [constructor|]. cbn [skip_trivia]. destruct (trivial g) eqn:E; [|apply Thin_refl].
  rewrite gtokenss_cons. eapply Thin_trans; [exact IH|now apply trivial_thin].
Qed.
Lemma join_thin l : Thin (gtokenss (join_results l)) (gtokenss l).
Proof.
  induction l as [|g l IH]; [constructor|]. cbn [join_results].
  assert (A : Thin (gtokenss (g :: join_results l)) (gtokenss (g :: l))).
  { rewrite !gtokenss_cons. apply Thin_app; [apply Thin_refl|exact IH]. }
  destruct (trivial g) eqn:E.
  - pose proof (skip_thin l) as B. destruct (skip_trivia l) as [|x y]; [exact A|].
    destruct (is_node RESULT x); [|exact A]. rewrite (gtokenss_cons g). eapply Thin_trans; [exact B|now apply trivial_thin].
  - destruct (is_node RESULT g); [apply Thin_refl|exact A].
Qed.
Lemma survivors_thin k l : Thin (gtokenss (survivors k l)) (gtokenss l).
Proof.
  destruct k; try apply Thin_refl; cbn [survivors].
  - apply skip_thin.
  - destruct (existsb (is_token L_PAREN) l); [apply Thin_refl|apply join_thin].
Qed.
Lemma keep_thin : forall g, Thin (gtokens (keep g)) (gtokens g).
Proof.
  apply green_ind'; [intros; apply Thin_refl|]. intros k cs H. cbn [keep].
  change (Thin (gtokenss (survivors k (map keep cs))) (gtokenss cs)).
  eapply Thin_trans; [apply survivors_thin|]. induction H as [|g l Hg _ IH]; [constructor|].
  cbn [map]. rewrite !gtokenss_cons. now apply Thin_app.
Qed.

Lemma keep_code g : code (keep g) = code g.
Proof.
  unfold code. f_equal. apply Thin_filter; [|apply keep_thin]. intros k t Hk. cbn [fst]. now rewrite Hk.
Qed.

(** ** Formatting *)

Lemma layout_lines s : line_break (layout_of s) = [c_lf] \/ line_break (layout_of s) = [c_cr; c_lf].
Proof. unfold layout_of. cbn. destruct (f_crlf s); auto. Qed.

Lemma print_lexemes s d n : okp (pcs d) -> lexemes (print s (DNest n d)) = texts (pcs d).
Proof.
  intros H. change (pcs d) with (pcs (DNest n d)) in H |- *. apply lex_pieces; [exact H|].
  unfold print. apply print_rend. apply layout_lines.
Qed.
Lemma print_lexemes0 s d : okp (pcs d) -> lexemes (print s d) = texts (pcs d).
Proof. intros H. apply lex_pieces; [exact H|]. unfold print. apply print_rend. apply layout_lines. Qed.

Lemma root_elements cs : (forall t, ~ In (ERROR, t) (gtokens (Node ROOT cs))) -> Ordinary (Node ROOT cs) -> Forall RootEl cs.
Proof.
  intros He Ho. pose proof (Ho _ _ (Sub_here _)) as Hm. change (ordinary ROOT) with (Star (Nd MODULE)) in Hm.
  apply Forall_forall. intros g Hg. destruct (significant g) eqn:Es.
  - assert (Hin : In g (filter significant cs)) by now apply filter_In.
    revert Hin. clear -Hm. remember (Star (Nd MODULE)) as r eqn:Er. induction Hm; try discriminate; [intros []|].
    injection Er as ->. intros Hin. apply in_app_or in Hin as [Hin|Hin]; [|auto].
    apply m_nd in Hm1 as (c & ->). destruct Hin as [<-|[]]. reflexivity.
  - destruct g as [k t|]; [|discriminate]. cbn [significant RootEl] in *. now apply negb_false_iff.
Qed.

Theorem format_leaves dbg src tree s :
  parse dbg src = Parsed tree [] -> Fine (directive (f_options s)) tree ->
  lexemes (format s tree) = leaves (f_options s) (keep tree).
Proof.
  intros H HF. destruct (parse_root _ _ _ _ H) as (cs & ->). pose proof HF as (He & Ho & _).
  destruct (document_ok (f_options s) cs) as (A & B).
  - apply Forall_forall. intros c Hc. eapply parse_WF; eauto.
  - now apply root_elements.
  - eapply parse_trivia_root; eauto.
  - unfold format. rewrite <- B. now apply print_lexemes0.
Qed.

Lemma Sub_tokens g x : Sub g x -> forall p, In p (gtokens x) -> In p (gtokens g).
Proof. induction 1 as [|k cs c g Hc _ IH]; intros p Hp; [exact Hp|]. eapply gtokens_in; eauto. Qed.
Lemma WF_sub o g x : WF o g -> Sub g x -> WF o x.
Proof.
  intros [A B] Hs. split.
  - intros k cs Hx. apply A. clear -Hs Hx. induction Hs; [exact Hx|]. econstructor; eauto.
  - intros k t Hin. apply B. eapply Sub_tokens; eauto.
Qed.

Theorem node_leaves dbg src tree s k cs outer n :
  parse dbg src = Parsed tree [] -> Fine (directive (f_options s)) tree ->
  Sub tree (Node k cs) -> k <> ROOT -> should_ignore (f_options s) outer = false ->
  lexemes (print s (DNest n (gdoc (f_options s) outer (Node k cs)))) = leaves (f_options s) (keep (Node k cs)).
Proof.
  intros H HF Hs Hk Ho. destruct (parse_root _ _ _ _ H) as (rs & ->).
  inversion Hs as [|? ? c ? Hc Hsub]; subst; [congruence|].
  pose proof (WF_sub _ _ _ (parse_WF _ _ _ _ _ H HF Hc) Hsub) as HW.
  destruct (all_print (f_options s) (Node k cs) HW eq_refl outer Ho) as (A & _ & B & _).
  rewrite <- B. now apply print_lexemes.
Qed.
