(** Properties C01 to C07 of the parser.  [parse dbg src] models
    [Parser::new(src).parse()] together with [Parser::errors()]; [dbg] is
    true for builds with debug assertions (crates/parser/src/parser/mod.rs:17-66).
    The vocabulary of the statements is in SpecParser.v. *)

From Coq Require Import String List NArith Bool Arith Lia.
From Verif Require Import Text Kind Green SpecParser Lexer LexerFacts Winnow Grammar Sem
  Lossless Total Bounds Lang TokForm Shape Debug.
Import ListNotations.

(** ** C01: what the tree text is *)

(** The source is a covered part [c] and a dropped end [d]; the text of the
    tree is [c] with only malformed string pieces (each directly before an
    opening parenthesis) left out.  So nothing is invented, changed,
    duplicated or reordered. *)
Theorem C01_tree_text dbg src tree errs :
  parse dbg src = Parsed tree errs ->
  exists c d, src = c ++ d /\ Cov c (gtext tree) /\ Droppable d.
Proof.
  intros H. apply parse_end in H as (o & c & d & s1 & -> & -> & Hc & Hd & _).
  exists c, d. auto.
Qed.

(** [Cov] only removes characters: what remains is a subsequence. *)
Inductive Subseq : text -> text -> Prop :=
| Subseq_nil l : Subseq [] l
| Subseq_keep c a b : Subseq a b -> Subseq (c :: a) (c :: b)
| Subseq_skip c a b : Subseq a b -> Subseq a (c :: b).

Lemma Subseq_app_r a g b : Subseq a b -> Subseq a (g ++ b).
Proof. intros H. induction g; simpl; [exact H|constructor; exact IHg]. Qed.

Theorem C01_subsequence dbg src tree errs :
  parse dbg src = Parsed tree errs -> Subseq (gtext tree) src.
Proof.
  intros H. apply C01_tree_text in H as (c & d & -> & Hc & _).
  induction Hc.
  - constructor.
  - constructor; assumption.
  - rewrite <- app_assoc. apply Subseq_app_r. exact IHHc.
Qed.
Print Assumptions C01_tree_text.
Print Assumptions C01_subsequence.

(** The stronger claim "the tree text is a prefix of the source" is false:
    the malformed string before the parenthesis vanishes from the middle. *)
Definition bad_escape_src : text := T "(module " ++ [c_quote] ++ T "\u(foo))".
Theorem C01_prefix_refuted :
  exists src tree errs, parse false src = Parsed tree errs
    /\ ~ exists d, src = gtext tree ++ d.
Proof.
  exists bad_escape_src. destruct (parse false bad_escape_src) as [tree errs| |] eqn:E;
    [|vm_compute in E; discriminate|vm_compute in E; discriminate].
  exists tree, errs. split; [reflexivity|].
  vm_compute in E. injection E as <- _. intros [d Hd]. vm_compute in Hd. discriminate.
Qed.
Print Assumptions C01_prefix_refuted.

(** A source whose tree is non-trivial and equal to it. *)
Definition sample : text :=
  T "(module (func $f (param i32) (result i32) (local.get 0) (; c ;)) ) ;; end".
Example C01_sample : exists tree,
  parse false sample = Parsed tree [] /\ gtext tree = sample
  /\ 20 <= length (gtokens tree).
Proof.
  destruct (parse false sample) as [tree errs| |] eqn:E;
    [|vm_compute in E; discriminate|vm_compute in E; discriminate].
  vm_compute in E. injection E as <- <-. eexists. split; [reflexivity|]. split; [reflexivity|].
  apply Nat.leb_le. reflexivity.
Qed.

(** ** C02: no error reported implies lossless *)
Theorem C02_no_errors_lossless dbg src tree :
  parse dbg src = Parsed tree [] -> gtext tree = src.
Proof.
  intros H. apply parse_end in H as (o & c & d & s1 & -> & -> & _ & _ & _ & Hc & He & _).
  destruct (He eq_refl) as [Hl ->]. rewrite app_nil_r. symmetry. exact (Hc Hl).
Qed.
Print Assumptions C02_no_errors_lossless.
(** [C01_sample] is a case with no errors. *)

(** ** C03: what is dropped at the end *)

(** Text dropped at the end starts with a form feed or a malformed string,
    and is always accompanied by a syntax error. *)
Theorem C03_dropped_text dbg src tree errs :
  parse dbg src = Parsed tree errs ->
  exists c d, src = c ++ d /\ Cov c (gtext tree) /\ Droppable d /\ (d <> [] -> errs <> []).
Proof.
  intros H. apply parse_end in H as (o & c & d & s1 & -> & -> & Hc & Hd & He & _).
  exists c, d. auto.
Qed.

(** A source without form feeds and double quotes loses nothing, whatever
    else is wrong with it. *)
Lemma Cov_noquote a b : Cov a b -> ~ In c_quote a -> a = b.
Proof.
  induction 1; intros Hn.
  - reflexivity.
  - f_equal. apply IHCov. intros Hi. apply Hn. now right.
  - exfalso. apply Hn. destruct H as (p & h & _ & _ & [->| ->]); now left.
Qed.
Theorem C03_lossless_without_quotes dbg src tree errs :
  parse dbg src = Parsed tree errs -> ~ In c_quote src -> ~ In c_ff src ->
  gtext tree = src.
Proof.
  intros H Hq Hf. apply C03_dropped_text in H as (c & d & -> & Hc & Hd & _).
  assert (d = []) as ->.
  { destruct Hd as [Hd|[[r ->]|(p & _ & Hd)]]; [exact Hd| |].
    - exfalso. apply Hf, in_or_app. right. now left.
    - exfalso. apply Hq, in_or_app. right.
      destruct Hd as [->|[(r & -> & _)|[(h & r & -> & _)|(r & -> & _)]]]; now left. }
  rewrite app_nil_r in *. symmetry. now apply Cov_noquote.
Qed.
Print Assumptions C03_dropped_text.
Print Assumptions C03_lossless_without_quotes.

(** Full losslessness is false: a form feed after the module. *)
Theorem C03_lossless_refuted :
  exists src tree errs, parse false src = Parsed tree errs /\ gtext tree <> src.
Proof.
  exists (T "(module)" ++ [c_ff] ++ T "(module)").
  destruct (parse false _) as [tree errs| |] eqn:E;
    [|vm_compute in E; discriminate|vm_compute in E; discriminate].
  exists tree, errs. split; [reflexivity|].
  vm_compute in E. injection E as <- _. vm_compute. discriminate.
Qed.
Print Assumptions C03_lossless_refuted.

(** A source full of errors that is still covered. *)
Example C03_broken_sample : exists tree errs,
  parse false (T "(module (fnc (i32.const 1 (") = Parsed tree errs
  /\ gtext tree = T "(module (fnc (i32.const 1 (" /\ errs <> [].
Proof.
  destruct (parse false (T "(module (fnc (i32.const 1 (")) as [tree errs| |] eqn:E;
    [|vm_compute in E; discriminate|vm_compute in E; discriminate].
  vm_compute in E. injection E as <- <-. do 2 eexists. split; [reflexivity|].
  split; [reflexivity|discriminate].
Qed.

(** ** C04: parsing is total *)

(** Release builds return a tree with root kind ROOT for every source. *)
Theorem C04_release_total src :
  exists cs errs, parse false src = Parsed (Node ROOT cs) errs.
Proof.
  destruct (parse_release_total src) as (tree & errs & H). pose proof H as H2.
  apply parse_end in H as (o & _ & _ & _ & -> & _). eauto.
Qed.

(** Every build terminates. *)
Theorem C04_terminates dbg src : parse dbg src <> ParseOof.
Proof. apply parse_terminates. Qed.

(** A debug build either panics or does exactly what the release build does. *)
Theorem C04_debug_agrees src :
  parse true src = ParsePanic \/ parse true src = parse false src.
Proof. apply parse_dbg. Qed.

(** It does not panic unless a block comment opener occurs twice. *)
Theorem C04_debug_total src :
  (forall a b c, src <> a ++ T "(;" ++ b ++ T "(;" ++ c) ->
  exists cs errs, parse true src = Parsed (Node ROOT cs) errs.
Proof.
  intros H. rewrite parse_debug_ok.
  - apply C04_release_total.
  - intros (a & b & c & Hs). exact (H a b c Hs).
Qed.

(** Totality of debug builds is false. *)
Theorem C04_debug_total_refuted : exists src, parse true src = ParsePanic.
Proof. exists (T "(module) (; a (; b"). vm_compute. reflexivity. Qed.
Print Assumptions C04_release_total.
Print Assumptions C04_terminates.
Print Assumptions C04_debug_agrees.
Print Assumptions C04_debug_total.
Print Assumptions C04_debug_total_refuted.

(** A comment, even unterminated, is harmless alone. *)
Example C04_one_opener : exists cs errs,
  parse true (T "(module (; x") = Parsed (Node ROOT cs) errs.
Proof.
  apply C04_debug_total. intros a b c H. apply (f_equal (filter (N.eqb 59))) in H.
  rewrite !filter_app in H. apply (f_equal (@length _)) in H. rewrite !app_length in H.
  cbn in H. lia.
Qed.

(** ** C05: error positions *)

(** Both ends of every reported error are character boundaries of the
    source, hence at most its byte length. *)
Theorem C05_error_positions dbg src tree errs e :
  parse dbg src = Parsed tree errs -> In e errs ->
  Boundary src (e_start e) /\ Boundary src (e_end e).
Proof.
  intros H Hin. apply parse_end in H as (o & c & d & s1 & _ & _ & _ & _ & _ & _ & _ & Hf).
  rewrite Forall_forall in Hf. exact (Hf e Hin).
Qed.
Theorem C05_error_bounds dbg src tree errs e :
  parse dbg src = Parsed tree errs -> In e errs ->
  e_start e <= tlen src /\ e_end e <= tlen src.
Proof.
  intros H Hin. destruct (C05_error_positions _ _ _ _ _ H Hin) as [(p & q & -> & ->) (p' & q' & Heq & ->)].
  rewrite Heq at 2. rewrite !tlen_app. lia.
Qed.
Print Assumptions C05_error_positions.
Print Assumptions C05_error_bounds.

Example C05_sample : exists tree e es,
  parse false (T "(module (func") = Parsed tree (e :: es) /\ e_start e = 13.
Proof.
  destruct (parse false (T "(module (func")) as [tree errs| |] eqn:E;
    [|vm_compute in E; discriminate|vm_compute in E; discriminate].
  vm_compute in E. injection E as <- <-. do 3 eexists. split; reflexivity.
Qed.

(** Start may be greater than end. *)
Theorem C05_ordered_refuted : exists src tree errs e,
  parse false src = Parsed tree errs /\ In e errs /\ e_end e < e_start e.
Proof.
  exists (T "( )").
  destruct (parse false (T "( )")) as [tree errs| |] eqn:E;
    [|vm_compute in E; discriminate|vm_compute in E; discriminate].
  vm_compute in E. injection E as <- <-. do 3 eexists. split; [reflexivity|].
  split; [left; reflexivity|]. vm_compute. lia.
Qed.

(** ** C06: silent ERROR tokens *)

(** "An ERROR token implies a reported error" is false. *)
Theorem C06_error_tokens_reported_refuted :
  exists src tree t, parse false src = Parsed tree [] /\ HasToken tree ERROR t.
Proof.
  exists (T "(module)) (module (func))").
  destruct (parse false _) as [tree errs| |] eqn:E;
    [|vm_compute in E; discriminate|vm_compute in E; discriminate].
  vm_compute in E. injection E as <- <-. do 2 eexists. split; [reflexivity|].
  unfold HasToken. vm_compute. repeat (first [left; reflexivity | right]).
Qed.

(** It fails only through a stray closing parenthesis at the top level: when
    no error is reported, the first ERROR token is such a parenthesis, a
    child of the root, preceded only by error-free items. *)
Theorem C06_silent_error_tokens dbg src tree t :
  parse dbg src = Parsed tree [] -> HasToken tree ERROR t ->
  exists before tr after,
    tree = Node ROOT (before ++ tr ++ Tok ERROR (T ")") :: after)
    /\ (forall k u, In (k, u) (gtokenss before) -> k <> ERROR)
    /\ Forall (fun g => exists k u, g = Tok k u /\ In k [WHITESPACE; LINE_COMMENT; BLOCK_COMMENT]) tr.
Proof.
  intros H Hin. destruct (parse_silent_error _ _ _ _ H Hin) as (o1 & tr & o3 & Ht & Hn & Hf).
  exists o1, tr, o3. split; [exact Ht|]. split.
  - intros k u Hi ->. apply Hn. apply in_map_iff. exists (ERROR, u). auto.
  - eapply Forall_impl; [|exact Hf]. intros [k u|k cs]; [|intros []].
    intros (Hk & _). exists k, u. split; [reflexivity|].
    destruct k; try discriminate Hk; simpl; auto.
Qed.
Print Assumptions C06_error_tokens_reported_refuted.
Print Assumptions C06_silent_error_tokens.

(** ** C07: lexical form of tokens *)
Theorem C07_token_forms dbg src tree errs k t :
  parse dbg src = Parsed tree errs -> HasToken tree k t -> LexForm k t.
Proof. apply parse_tokens. Qed.

Lemma Digits_ne p t : Digits p t -> t <> [].
Proof. intros (d & r & -> & _). discriminate. Qed.
Lemma UIntForm_ne t : UIntForm t -> t <> [].
Proof. intros [[H|(d & -> & _)] _]; [now apply Digits_ne in H|discriminate]. Qed.
Lemma Cat_ne_r (P Q : text -> Prop) (t : text) : (forall t, Q t -> t <> []) -> Cat P Q t -> t <> [].
Proof. intros H (a & b & -> & _ & Hb) E. apply app_eq_nil in E as [_ ->]. now apply H in Hb. Qed.
Lemma Cat_ne_l (P Q : text -> Prop) (t : text) : (forall t, P t -> t <> []) -> Cat P Q t -> t <> [].
Proof. intros H (a & b & -> & Ha & _) E. apply app_eq_nil in E as [-> _]. now apply H in Ha. Qed.
Lemma OneOf_ne l t : ~ In ""%string l -> OneOf l t -> t <> [].
Proof.
  intros Hn H ->. apply in_map_iff in H as (s & Hs & Hi). destruct s; [auto|discriminate Hs].
Qed.

(** No token is empty. *)
Theorem C07_tokens_nonempty dbg src tree errs k t :
  parse dbg src = Parsed tree errs -> HasToken tree k t -> t <> [].
Proof.
  intros H Hin. apply (C07_token_forms _ _ _ _ _ _ H) in Hin. revert Hin. clear.
  destruct k; cbn [LexForm]; try contradiction; try tauto;
    try (intros (m & -> & _); discriminate); try (intros (m & ->); discriminate);
    try (intros ->; discriminate).
  all: try (apply OneOf_ne; simpl; intuition discriminate).
  all: try solve [intros (c & r & -> & _); discriminate].
  all: try solve [intros (b & _ & [->| ->]); discriminate].
  all: first [ solve [apply UIntForm_ne] | solve [apply Cat_ne_r, UIntForm_ne]
             | solve [intros (n & [->| ->] & _); discriminate] | idtac ].
  apply Cat_ne_r. intros u [H|[H|[->|[->|H]]]]; try discriminate; revert H; apply Cat_ne_l;
    try apply Digits_ne; intros v <-; discriminate.
Qed.
Print Assumptions C07_token_forms.
Print Assumptions C07_tokens_nonempty.

(** A tree with many sorts of tokens. *)
Example C07_sample : exists tree, parse false sample = Parsed tree []
  /\ HasToken tree KEYWORD (T "func") /\ HasToken tree IDENT (T "$f")
  /\ HasToken tree NUM_TYPE (T "i32") /\ HasToken tree INSTR_NAME (T "local.get")
  /\ HasToken tree BLOCK_COMMENT (T "(; c ;)") /\ HasToken tree LINE_COMMENT (T ";; end").
Proof.
  destruct (parse false sample) as [tree errs| |] eqn:E;
    [|vm_compute in E; discriminate|vm_compute in E; discriminate].
  vm_compute in E. injection E as <- <-. eexists. split; [reflexivity|].
  unfold HasToken. vm_compute. repeat split; repeat (first [left; reflexivity | right]).
Qed.
