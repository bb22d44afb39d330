(** Properties C32 and C33 of the formatter.  [format s tree] models
    [wat_formatter::format]; [s] is any setting, with any rule for breaking
    lines.  The vocabulary of the statements is in SpecFormat.v. *)

From Coq Require Import String List NArith Bool Arith Lia.
From Verif Require Import Text Kind Green SpecParser SpecSyntax Lexer LexerFacts Winnow Grammar Sem Lossless Total
  Bounds Lang TokForm Shape ThmParser ThmSyntax Red LineIndex Cursor Doc Ast Nav NavSpec NavFacts SpecAction Action ThmAction
  SpecFormat Format FmtLang FmtPieces FmtSteps FmtTrivia FmtRun FmtNode FmtTree FmtDoc FmtParse FmtRequest.
Import ListNotations.

(** ** The tokens of a document *)

(** Without the comments, the lexemes of the formatted text are the tokens of
    the document; the comments are between the same tokens, and in the same
    order, as before.  Only the comments that [keep] leaves out are lost. *)
Theorem C32_tokens_kept dbg src tree s :
  parse dbg src = Parsed tree [] -> (forall t, ~ In (ERROR, t) (gtokens tree)) -> Ordinary tree ->
  StringsClosed tree -> NoDirective (directive (f_options s)) tree ->
  Forall2 (Printed (fix_comments (f_options s))) (shown (keep tree)) (lexemes (format s tree)).
Proof.
  intros H H1 H2 H3 H4. rewrite (format_leaves dbg src) by (auto; repeat split; auto).
  apply leaves_shown. intros k t Hin. apply (C07_token_forms _ _ _ _ _ _ H).
  eapply Thin_in; [apply keep_thin|exact Hin].
Qed.

Lemma atoms_plain t : Atoms t -> comment t = false.
Proof.
  destruct 1 as [|c r Hc _]; [reflexivity|]. unfold is_atom in Hc. apply negb_true_iff in Hc.
  apply orb_false_elim in Hc as [Hc H4]. apply orb_false_elim in Hc as [Hc _].
  apply orb_false_elim in Hc as [_ H2].
  unfold comment, starts_with. change (Text.T ";;") with [c_semi; c_semi]. change (Text.T "(;") with [c_lparen; c_semi].
  cbn [strip_prefix]. rewrite (N.eqb_sym c_semi c), (N.eqb_sym c_lparen c), H4, H2. reflexivity.
Qed.
Lemma token_plain k t : LexForm k t -> ClosedStr k t -> k <> ERROR -> is_trivia_kind k = false -> comment t = false.
Proof.
  intros H Hs He Ht.
  assert (A : Atoms t /\ t <> [] -> comment t = false) by (intros [A _]; now apply atoms_plain).
  destruct k; cbn [LexForm] in H; try contradiction; try discriminate Ht; try congruence;
    try (apply A; revert H; apply oneof_atoms; reflexivity).
  - subst t. reflexivity.
  - subst t. reflexivity.
  - apply A. now apply word_atoms.
  - apply A. destruct H as (r & -> & _ & Hr). split; [|discriminate]. constructor; [reflexivity|].
    eapply Forall_impl; [|exact Hr]. exact id_atom.
  - destruct (Hs eq_refl) as (b & Hb & ->). reflexivity.
  - apply A. split.
    + apply (fun A B => cat_atoms _ _ _ A B H); [exact sign_atoms| ]. intros a Ha. apply (uint_atoms _ Ha).
    + apply (fun A => cat_ne _ _ _ A H). intros a Ha. apply (uint_atoms _ Ha).
  - apply A. now apply uint_atoms.
  - apply A. now apply float_atoms.
  - apply A. destruct H as (n & [->| ->] & Hn); apply uint_atoms in Hn as [Hn _]; (split; [|discriminate]);
      (apply atoms_app; [repeat constructor|exact Hn]).
Qed.
Lemma printed_comment b k t u : LexForm k t -> is_trivia_kind k = true -> k <> WHITESPACE -> Printed b (k, t) u ->
  comment u = true.
Proof.
  intros H Ht Hw HP. inversion HP; subst.
  - destruct k; try discriminate Ht; try congruence; destruct H as (r & -> & _); reflexivity.
  - reflexivity.
  - reflexivity.
Qed.

Lemma printed_code b l us : (forall k t, In (k, t) l -> LexForm k t /\ ClosedStr k t /\ k <> ERROR /\ k <> WHITESPACE) ->
  Forall2 (Printed b) l us ->
  filter (fun t => negb (comment t)) us = map snd (filter (fun p => negb (is_trivia_kind (fst p))) l).
Proof.
  intros H. induction 1 as [|[k t] u l us HP _ IH]; [reflexivity|]. cbn [filter fst].
  destruct (H k t (or_introl eq_refl)) as (H1 & H2 & H3 & H4).
  rewrite IH by (intros k' t' Hin; apply H; now right). destruct (is_trivia_kind k) eqn:Et; cbn [negb].
  - now rewrite (printed_comment _ _ _ _ H1 Et H4 HP).
  - inversion HP; subst; try discriminate Et. now rewrite (token_plain _ _ H1 H2 H3 Et).
Qed.
Lemma shown_code g : map snd (filter (fun p => negb (is_trivia_kind (fst p))) (shown g)) = code g.
Proof.
  unfold shown, code. f_equal. induction (gtokens g) as [|[k t] l IH]; [reflexivity|]. cbn [filter fst].
  destruct (kind_eqb k WHITESPACE) eqn:E; cbn [negb].
  - apply kind_eqb_eq in E. subst k. cbn. exact IH.
  - cbn [filter fst]. destruct (is_trivia_kind k); cbn [negb]; congruence.
Qed.

(** The program is kept: nothing is added, dropped, altered or reordered. *)
Theorem C32_program_kept dbg src tree s :
  parse dbg src = Parsed tree [] -> (forall t, ~ In (ERROR, t) (gtokens tree)) -> Ordinary tree ->
  StringsClosed tree -> NoDirective (directive (f_options s)) tree ->
  filter (fun t => negb (comment t)) (lexemes (format s tree)) = code tree.
Proof.
  intros H H1 H2 H3 H4. rewrite <- keep_code, <- shown_code.
  eapply printed_code; [|eapply C32_tokens_kept; eauto].
  intros k t Hin. unfold shown in Hin. apply filter_In in Hin as [Hin Hw]. cbn [fst] in Hw.
  apply (Thin_in _ _ _ (keep_thin tree)) in Hin. repeat split.
  - exact (C07_token_forms _ _ _ _ _ _ H Hin).
  - intros ->. exact (H3 _ Hin).
  - intros ->. exact (H1 _ Hin).
  - intros ->. rewrite (proj2 (kind_eqb_eq WHITESPACE WHITESPACE) eq_refl) in Hw. discriminate.
Qed.

(** ** Comments *)

(** Every comment is kept, in its place between the tokens, if none is before
    the first instruction of a [then] branch written without parentheses or
    between parameters and results of a type use without [(type ...)]. *)
Theorem C33_comments_kept dbg src tree s :
  parse dbg src = Parsed tree [] -> (forall t, ~ In (ERROR, t) (gtokens tree)) -> Ordinary tree ->
  StringsClosed tree -> NoDirective (directive (f_options s)) tree -> NoLostComments tree ->
  Forall2 (Printed (fix_comments (f_options s))) (shown tree) (lexemes (format s tree)).
Proof. intros H H1 H2 H3 H4 H5. rewrite <- H5. eapply C32_tokens_kept; eauto. Qed.

(** If comments are not to be changed, they are printed as they are. *)
Theorem C33_comments_unchanged dbg src tree s :
  parse dbg src = Parsed tree [] -> (forall t, ~ In (ERROR, t) (gtokens tree)) -> Ordinary tree ->
  StringsClosed tree -> NoDirective (directive (f_options s)) tree -> NoLostComments tree ->
  fix_comments (f_options s) = false ->
  lexemes (format s tree) = map snd (shown tree).
Proof.
  intros H H1 H2 H3 H4 H5 H6. pose proof (C33_comments_kept _ _ _ s H H1 H2 H3 H4 H5) as X. rewrite H6 in X.
  induction X as [|p u l us HP _ IH]; [reflexivity|]. cbn [map]. rewrite IH. inversion HP; subst; try discriminate. reflexivity.
Qed.

(** The two [expect]s of [format_line_comment] and [format_block_comment]
    (mod.rs:254-289) cannot fail, whether or not there are syntax errors. *)
Theorem C33_no_panic dbg src tree errs :
  parse dbg src = Parsed tree errs ->
  (forall t, In (LINE_COMMENT, t) (gtokens tree) -> exists r, strip_prefix (Text.T ";;") t = Some r)
  /\ (forall t, In (BLOCK_COMMENT, t) (gtokens tree) ->
        exists r c, strip_prefix (Text.T "(;") t = Some r /\ strip_suffix (Text.T ";)") r = Some c).
Proof.
  intros H. split; intros t Hin; destruct (C07_token_forms _ _ _ _ _ _ H Hin) as (r & -> & _).
  - exists r. apply FmtParse.strip_prefix_app.
  - exists (r ++ Text.T ";)"), r. split; [apply FmtParse.strip_prefix_app|apply strip_suffix_app].
Qed.

(** ** The requests *)

Lemma two_before_ok tree n : InTree tree n -> forall t, two_before n = Some (Tok LINE_COMMENT t) ->
  In (LINE_COMMENT, t) (gtokens tree).
Proof.
  intros H t E. inversion H as [|p c Hp Hc]; subst; [discriminate|].
  apply child_in in Hc as (l & g & r & Ec & ->). unfold two_before in E. cbn [ups u_idx u_green] in E.
  destruct (length l) as [|[|m]]; try discriminate. apply nth_error_In in E.
  apply (Sub_tokens _ _ (Desc_Sub _ _ Hp)). destruct (el p) as [|k cs]; [destruct E|]. cbn [gchildren] in E.
  now apply (gtokens_in k cs _ _ E); left.
Qed.
Lemma no_directive_ignore o tree n : NoDirective (directive o) tree -> InTree tree n ->
  should_ignore o (two_before n) = false.
Proof.
  intros Hd Hn. destruct (should_ignore o (two_before n)) eqn:E; [|reflexivity]. exfalso.
  destruct (two_before n) as [[k t|]|] eqn:Et; try discriminate E. destruct k; try discriminate E.
  apply (Hd t); [now apply two_before_ok with n|]. now apply ignore_directive.
Qed.

Lemma visited_last f : forall n a b x, a <= b -> gsize (el n) <= f -> Desc n x -> SpecAction.Encloses x a b ->
  (a < b \/ estart x < a /\ b < eend x) -> Red.is_node x = true -> Desc x (List.last (visited f n a b) n).
Proof.
  induction f as [|f IH]; intros n a b x Hab F D He Hi N.
  - destruct (el n); cbn in F; lia.
  - apply Desc_top in D as [->|(c & Hc & D)].
    + (* the node itself *)
      assert (X : forall f n, Desc n (List.last (visited f n a b) n)).
      { clear. induction f as [|f IH]; intros n; [constructor|]. cbn [visited].
        destruct (child_at_range n a b) as [c|] eqn:E; [|constructor]. apply child_at_range_sound in E as [Hc _].
        destruct (Red.is_node c); [|constructor]. specialize (IH c).
        assert (Desc n c) by (econstructor; [constructor|exact Hc]).
        apply Desc_trans with c; [assumption|]. cbn [List.last]. destruct (visited f c a b) as [|y l] eqn:E; [exact IH|].
        replace (List.last (y :: l) n) with (List.last (y :: l) c); [exact IH|]. clear. revert y. induction l; intros y; [reflexivity|].
        apply IHl. }
      apply X.
    + cbn [visited].
      assert (Wc : Within a b c).
      { destruct (Desc_range _ _ D) as [R1 R2]. destruct He as [W1 W2]. split; [split; lia|].
        destruct Hi as [?|[? ?]]; [now left|right; lia]. }
      rewrite (child_at_range_found _ _ _ _ Hab Hc Wc).
      assert (S : gsize (el c) < gsize (el n)).
      { apply child_in in Hc as (l & g & r & E & ->). destruct (el n) as [k t|k cs]; [destruct l; discriminate|].
        cbn [gchildren] in E. cbn [el]. apply gsize_child. rewrite E. apply in_elt. }
      assert (Nc : Red.is_node c = true).
      { apply Desc_top in D as [->|(d & Hd & _)]; [exact N|].
        apply child_in in Hd as (l & g & r & E & _). unfold Red.is_node. destruct (el c); [destruct l; discriminate|reflexivity]. }
      rewrite Nc. specialize (IH c a b x Hab ltac:(lia) D He Hi N).
      cbn [List.last]. destruct (visited f c a b) as [|y l] eqn:E; [exact IH|].
      replace (List.last (y :: l) n) with (List.last (y :: l) c); [exact IH|]. clear. revert y.
      induction l; intros y; [reflexivity|]. apply IHl.
Qed.

Lemma range_node_in tree a b : let n := range_node tree a b in
  InTree tree n /\ (n = root_of tree \/ Red.is_node n = true /\ SpecAction.Encloses n a b).
Proof.
  cbn zeta. unfold range_node. destruct (visited (gsize tree) (root_of tree) a b) as [|y l] eqn:E.
  - split; [constructor|now left].
  - assert (Hin : In (List.last (y :: l) (root_of tree)) (visited (gsize tree) (root_of tree) a b)).
    { rewrite E. destruct (exists_last (l := y :: l) ltac:(discriminate)) as (l' & z & ->). rewrite last_last.
      apply in_elt. }
    apply visited_sound in Hin as (H1 & _ & H3 & H4). split; [exact H1|]. now right.
Qed.

(** Formatting a document replaces all of it. *)
Theorem C32_formatting src tree s :
  parse false src = Parsed tree [] ->
  exists r, formatting s (new_line_index src) tree = Ans [(r, format s tree)]
    /\ line_col (new_line_index src) 0 = Some (fst r)
    /\ line_col (new_line_index src) (tlen src) = Some (snd r).
Proof.
  intros H. pose proof (C02_no_errors_lossless _ _ _ H) as E. unfold formatting, lsp_range.
  rewrite glen_tlen, E.
  destruct (line_col_total src 0) as (l & c & -> & _); [lia|].
  destruct (line_col_total src (tlen src)) as (l' & c' & -> & _); [lia|].
  eexists. split; [reflexivity|split; reflexivity].
Qed.

(** Formatting a range replaces one node: it contains the range, every node
    that contains the range (not as an empty range at one of its ends)
    contains it, and the new text has the tokens of the node, with the
    comments that [keep] leaves. *)
Theorem C32_range_formatting src tree s (r : range) a b :
  parse false src = Parsed tree [] -> (forall t, ~ In (ERROR, t) (gtokens tree)) -> Ordinary tree ->
  StringsClosed tree -> NoDirective (directive (f_options s)) tree ->
  rowan_range (new_line_index src) (fst r) (snd r) = RangeOk a b -> b <= tlen src ->
  exists n r' t, range_formatting s (new_line_index src) tree r = Ans [(r', t)]
    /\ InTree tree n /\ SpecAction.Encloses n a b
    /\ (forall x, InTree tree x -> Red.is_node x = true -> Within a b x -> Desc x n)
    /\ line_col (new_line_index src) (estart n) = Some (fst r')
    /\ line_col (new_line_index src) (eend n) = Some (snd r')
    /\ Forall2 (Printed (fix_comments (f_options s))) (shown (keep (el n))) (lexemes t).
Proof.
  intros H H1 H2 H3 H4 Er Hb. assert (Hf : Fine (directive (f_options s)) tree) by (repeat split; auto).
  pose proof (C02_no_errors_lossless _ _ _ H) as El.
  destruct (range_node_in tree a b) as [Hn Hc]. set (n := range_node tree a b) in *.
  assert (Hab : a <= b).
  { unfold rowan_range in Er. destruct (offset (new_line_index src) (fst r)) as [x|]; [|discriminate].
    destruct (offset (new_line_index src) (snd r)) as [y|]; [|discriminate].
    destruct (Nat.leb_spec x y) as [L|]; [|discriminate]. injection Er as <- <-. exact L. }
  assert (Hlen : eend n <= tlen src /\ estart n <= eend n).
  { apply Desc_range in Hn as [_ Hn]. unfold eend in *. cbn in Hn. rewrite (glen_tlen tree), El in Hn. unfold estart. lia. }
  unfold range_formatting. rewrite Er. unfold format_range. fold n.
  destruct (line_col_total src (estart n)) as (l & c & E1 & _); [lia|].
  destruct (line_col_total src (eend n)) as (l' & c' & E2 & _); [lia|].
  rewrite E1. cbn [amust abind].
  assert (Hd : exists d, format_node (f_options s) (two_before n) (el n) = Some d
    /\ lexemes (print s (DNest (snd (l, c)) d)) = leaves (f_options s) (keep (el n))).
  { pose proof (no_directive_ignore _ _ _ H4 Hn) as Hi. unfold format_node.
    apply Desc_top in Hn as [Hn|(x & Hx & Hn)].
    - rewrite <- Hn. destruct (parse_root _ _ _ _ H) as (cs & ->). cbn [root_of el gkind].
      rewrite (proj2 (kind_eqb_eq ROOT ROOT) eq_refl). eexists. split; [reflexivity|].
      destruct (document_ok (f_options s) cs) as (A & B).
      + apply Forall_forall. intros x Hx. eapply parse_WF; eauto.
      + now apply root_elements.
      + eapply parse_trivia_root; eauto.
      + rewrite <- B. rewrite print_lexemes; [reflexivity|exact A].
    - destruct Hc as [Hc|[Hc _]].
      { exfalso. apply child_in in Hx as (u & g & v & _ & ->). assert (U : ups n <> []).
        { clear -Hn. induction Hn as [|p q Hp IH Hq]; [discriminate|]. apply child_in in Hq as (? & ? & ? & _ & ->). discriminate. }
        rewrite Hc in U. now apply U. }
      unfold Red.is_node in Hc. destruct (el n) as [|k cs] eqn:En; [discriminate|].
      apply Desc_Sub in Hn. rewrite En in Hn. apply child_in in Hx as (u & g & v & Eg & ->). cbn [el] in Hn.
      destruct (parse_root _ _ _ _ H) as (rs & ->). cbn [root_of el gchildren] in Eg.
      assert (Hin : In g rs) by (rewrite Eg; apply in_elt).
      pose proof (parse_no_root _ _ _ _ _ _ H Hin Hn) as Hk. cbn [gkind].
      destruct (kind_eqb k ROOT) eqn:Ek; [apply kind_eqb_eq in Ek; contradiction|].
      assert (HW : WF (f_options s) (Node k cs)) by (eapply WF_sub; [eapply parse_WF; eauto|exact Hn]).
      destruct (shape_of k) as [sh|] eqn:Esh.
      + eexists. split; [reflexivity|]. eapply node_leaves; eauto. econstructor; eauto.
      + exfalso. apply (no_production _ _ _ HW). destruct k; try reflexivity; try discriminate Esh. contradiction. }
  destruct Hd as (d & Ed & Hd). rewrite Ed. cbn [amust abind fst snd]. unfold lsp_range. rewrite E1, E2. cbn [amust abind].
  exists n. eexists. eexists. split; [reflexivity|]. split; [exact Hn|]. split; [|split; [|split; [exact E1|split; [exact E2|]]]].
  - destruct Hc as [->|[_ Hc]]; [|exact Hc]. split; cbn; [lia|]. rewrite glen_tlen, El. exact Hb.
  - intros x Hx Nx [W1 W2]. unfold n, range_node. apply visited_last; auto.
  - cbn [snd] in Hd. rewrite Hd. apply leaves_shown. intros k t Hin. apply (C07_token_forms _ _ _ _ _ _ H).
    apply (Sub_tokens _ _ (Desc_Sub _ _ Hn)). eapply Thin_in; [apply keep_thin|exact Hin].
Qed.

(** ** Documents that meet the conditions *)

Fixpoint ordinaryb (g : green) : bool :=
  match g with
  | Tok _ _ => true
  | Node k cs => matchb (ordinary k) (filter significant cs) && forallb ordinaryb cs
  end.
Lemma ordinaryb_ok g : ordinaryb g = true -> Ordinary g.
Proof.
  induction g as [k t|k cs IH] using green_ind'; cbn [ordinaryb]; intros H k' cs' Hs.
  - inversion Hs.
  - apply andb_prop in H as [H1 H2]. inversion Hs as [|? ? c ? Hc Hs']; subst; [now apply matchb_ok|].
    rewrite Forall_forall in IH. rewrite forallb_forall in H2. exact (IH _ Hc (H2 _ Hc) _ _ Hs').
Qed.

(** A string without escapes, with its quotes. *)
Definition plain_char (c : char) : bool :=
  negb (N.eqb c c_quote || N.eqb c c_bslash || N.eqb c c_lf || N.eqb c c_cr).
Definition plain_string (t : text) : bool :=
  match t with
  | c :: r => match rev r with d :: b => N.eqb c c_quote && N.eqb d c_quote && forallb plain_char b | [] => false end
  | [] => false
  end.
Lemma plain_string_ok t : plain_string t = true -> exists b, StrBody b /\ t = [c_quote] ++ b ++ [c_quote].
Proof.
  unfold plain_string. destruct t as [|c r]; [discriminate|]. destruct (rev r) as [|d b] eqn:E; [discriminate|].
  intros H. apply andb_prop in H as [H Hb]. apply andb_prop in H as [H1 H2]. apply N.eqb_eq in H1, H2. subst c d.
  exists (rev b). split.
  - clear E. induction b as [|c b IH]; [constructor|]. cbn [forallb] in Hb. apply andb_prop in Hb as [Hc Hb].
    unfold plain_char in Hc. apply negb_true_iff in Hc.
    apply orb_false_elim in Hc as [Hc H4]. apply orb_false_elim in Hc as [Hc H3]. apply orb_false_elim in Hc as [H1 H2].
    apply N.eqb_neq in H1, H2, H3, H4. cbn [rev]. constructor; auto.
  - cbn [app]. f_equal. apply (f_equal (@rev _)) in E. rewrite rev_involutive in E. exact E.
Qed.
(** No comment contains a word that starts as the directive [d] does. *)
Definition absent (c : char) (t : text) : bool := negb (existsb (N.eqb c) t).
Lemma absent_ok c d t : absent c t = true -> ~ Directive (c :: d) t.
Proof.
  intros H (w & r & -> & _). unfold absent in H. apply negb_true_iff in H.
  enough (existsb (N.eqb c) (Text.T ";;" ++ w ++ (c :: d) ++ r) = true) by congruence.
  rewrite !existsb_app. cbn [existsb]. rewrite N.eqb_refl. now rewrite !orb_true_r.
Qed.

Definition fineb (tree : green) : bool :=
  ordinaryb tree
  && forallb (fun p => match fst p with
                       | ERROR => false
                       | STRING => plain_string (snd p)
                       | LINE_COMMENT => absent 102%N (snd p)
                       | _ => true
                       end) (gtokens tree).
Lemma fineb_ok tree : fineb tree = true -> Fine (Text.T "fmt-ignore") tree.
Proof.
  unfold fineb. intros H. apply andb_prop in H as [H1 H2]. rewrite forallb_forall in H2.
  split; [|split; [|split]].
  - intros t Hin. specialize (H2 _ Hin). discriminate H2.
  - now apply ordinaryb_ok.
  - intros t Hin. apply plain_string_ok. exact (H2 _ Hin).
  - intros t Hin. apply absent_ok. exact (H2 _ Hin).
Qed.

Definition shown_eqb (a b : list (kind * text)) : bool :=
  Nat.eqb (length a) (length b)
  && forallb (fun p => kind_eqb (fst (fst p)) (fst (snd p)) && text_eqb (snd (fst p)) (snd (snd p))) (combine a b).
Lemma shown_eqb_eq a b : shown_eqb a b = true -> a = b.
Proof.
  revert b. induction a as [|[k x] a IH]; intros [|[k' y] b]; unfold shown_eqb; cbn; try discriminate; [reflexivity|].
  intros H. apply andb_prop in H as [H1 H2]. apply andb_prop in H2 as [H2 H3]. apply andb_prop in H2 as [H2 H4].
  apply text_eqb_eq in H4. apply kind_eqb_eq in H2. subst. f_equal. apply IH. unfold shown_eqb. now rewrite H1, H3.
Qed.
Definition unlines (l : list string) : text := concat (map (fun x => Text.T x ++ [c_lf]) l).

Definition formatted_src : text := unlines [
  ";; header";
  "(module $m(; a ;)";
  "";
  "";
  "  (import ""env"" ""f"" (func $f (param i32 i32) (result i64)))";
  "  (memory 1 2) (global $g (mut i32)(i32.const 0x1F));;next";
  "  (func $h (export ""h"")(type 0) (param $p f64) (param i32)(result f32)";
  "      (local i32) (; b (; nested ;) ;)";
  "    block $l";
  "   loop";
  "    local.get 0  br_if $l";
  "    (if (result i32) (i32.eqz (local.get $p)) (then (i32.const 1)) (else (nop)))";
  "    end end $l";
  "    i32.load offset=4 align=8";
  "  )";
  "  (data (i32.const 0) ""abc"" ""d"")";
  "  (elem func $f $h)";
  ")(module)";
  ";; end"]%string.
Example C32_case :
  exists tree, parse false formatted_src = Parsed tree [] /\ Fine (Text.T "fmt-ignore") tree /\ NoLostComments tree
    /\ length (code tree) > 100
    /\ length (filter (fun p => is_trivia_kind (fst p)) (shown tree)) = 5.
Proof.
  assert (H : match parse false formatted_src with
              | Parsed tree [] => fineb tree && shown_eqb (shown (keep tree)) (shown tree)
                  && Nat.ltb 100 (length (code tree))
                  && Nat.eqb (length (filter (fun p => is_trivia_kind (fst p)) (shown tree))) 5
              | _ => false
              end = true) by (vm_compute; reflexivity).
  destruct (parse false formatted_src) as [tree [|]| |]; try discriminate.
  apply andb_prop in H as [H H4]. apply andb_prop in H as [H H3]. apply andb_prop in H as [H1 H2].
  exists tree. split; [reflexivity|]. split; [now apply fineb_ok|]. split; [|split].
  - now apply shown_eqb_eq.
  - now apply Nat.ltb_lt.
  - now apply Nat.eqb_eq.
Qed.

(** ** What is not kept *)

(** The document [src] has no syntax errors; [lost] says that formatting it
    with a tab size of two loses something. *)
Definition Loses (src : text) (lost : green -> list text -> Prop) : Prop :=
  exists tree, parse false src = Parsed tree [] /\ (forall t, ~ In (ERROR, t) (gtokens tree))
    /\ NoDirective (Text.T "fmt-ignore") tree
    /\ lost tree (lexemes (format (request_settings 2 true) tree)).
Definition plain_tokens (tree : green) : bool :=
  forallb (fun p => match fst p with ERROR | LINE_COMMENT => false | _ => true end) (gtokens tree).
Lemma loses_ok src (lost : green -> list text -> Prop) (lostb : green -> list text -> bool) :
  (forall g l, lostb g l = true -> lost g l) ->
  match parse false src with
  | Parsed tree [] => plain_tokens tree && lostb tree (lexemes (format (request_settings 2 true) tree))
  | _ => false
  end = true -> Loses src lost.
Proof.
  intros H1 H. destruct (parse false src) as [tree [|]| |] eqn:E; try discriminate.
  apply andb_prop in H as [H2 H3]. unfold plain_tokens in H2. rewrite forallb_forall in H2.
  exists tree. split; [exact E|]. split; [|split].
  - intros t Hin. specialize (H2 _ Hin). discriminate H2.
  - intros t Hin. specialize (H2 _ Hin). discriminate H2.
  - now apply H1.
Qed.

(** A token of the document is not among the lexemes of the formatted text. *)
Definition TokenLost (t : text) (g : green) (l : list text) : Prop := In t (code g) /\ ~ In t l.
Definition inb (t : text) (l : list text) : bool := existsb (text_eqb t) l.
Lemma inb_ok t l : inb t l = true <-> In t l.
Proof.
  unfold inb. rewrite existsb_exists. split.
  - intros (x & Hx & E). apply text_eqb_eq in E. now subst x.
  - intros H. exists t. split; [exact H|now apply text_eqb_eq].
Qed.
Lemma token_lost_ok t g l : inb t (code g) && negb (inb t l) = true -> TokenLost t g l.
Proof.
  intros H. apply andb_prop in H as [H1 H2]. split; [now apply inb_ok|]. intros Hin. apply inb_ok in Hin.
  rewrite Hin in H2. discriminate.
Qed.
(** The tokens are all there in another order. *)
Definition Reordered (g : green) (l : list text) : Prop := length l = length (code g) /\ l <> code g.
Definition texts_eqb (a b : list text) : bool :=
  Nat.eqb (length a) (length b) && forallb (fun p => text_eqb (fst p) (snd p)) (combine a b).
Lemma texts_eqb_refl a : texts_eqb a a = true.
Proof.
  unfold texts_eqb. rewrite Nat.eqb_refl. cbn [andb]. induction a as [|x a IH]; [reflexivity|]. cbn.
  rewrite IH, andb_true_r. now apply text_eqb_eq.
Qed.
Lemma reordered_ok g l : Nat.eqb (length l) (length (code g)) && negb (texts_eqb l (code g)) = true -> Reordered g l.
Proof.
  intros H. apply andb_prop in H as [H1 H2]. split; [now apply Nat.eqb_eq|]. intros E. rewrite E, texts_eqb_refl in H2.
  discriminate.
Qed.
(** A comment is not printed. *)
Definition CommentLost (t : text) (g : green) (l : list text) : Prop := In (BLOCK_COMMENT, t) (shown g) /\ ~ In t l.
Lemma comment_lost_ok t g l :
  existsb (fun p => kind_eqb (fst p) BLOCK_COMMENT && text_eqb (snd p) t) (shown g) && negb (inb t l) = true ->
  CommentLost t g l.
Proof.
  intros H. apply andb_prop in H as [H1 H2]. split.
  - apply existsb_exists in H1 as ([k x] & Hin & E). apply andb_prop in E as [E1 E2]. apply kind_eqb_eq in E1.
    apply text_eqb_eq in E2. cbn [fst snd] in *. now subst.
  - intros Hin. apply inb_ok in Hin. rewrite Hin in H2. discriminate.
Qed.

(** [shared] is dropped. *)
Theorem C32_shared_refuted : Loses (Text.T "(module (memory 1 2 shared))") (TokenLost (Text.T "shared")).
Proof. apply loses_ok with (1 := token_lost_ok _). vm_compute. reflexivity. Qed.
(** A second inline import of a function is dropped. *)
Theorem C32_imports_refuted :
  Loses (Text.T "(module (func (import ""a"" ""b"") (import ""c"" ""d"")))") (TokenLost (Text.T """c""")).
Proof. apply loses_ok with (1 := token_lost_ok _). vm_compute. reflexivity. Qed.
(** An inline import is moved before the exports. *)
Theorem C32_import_order_refuted : Loses (Text.T "(module (func (export ""a"") (import ""b"" ""c"")))") Reordered.
Proof. apply loses_ok with (1 := reordered_ok). vm_compute. reflexivity. Qed.
(** A label after [end] is moved to the start of the block, which gets a name
    that way. *)
Theorem C32_end_label_refuted : Loses (Text.T "(module (func block nop end $l))") Reordered.
Proof. apply loses_ok with (1 := reordered_ok). vm_compute. reflexivity. Qed.
(** The line break that ends an unclosed string is dropped: the string goes
    on. *)
Theorem C32_string_refuted :
  Loses (Text.T "(module (data ""abc" ++ [c_lf] ++ Text.T "))") (TokenLost (Text.T """abc")).
Proof. apply loses_ok with (1 := token_lost_ok _). vm_compute. reflexivity. Qed.
(** Comments between parameters and results, and before the first instruction
    of a branch, are dropped. *)
Theorem C33_type_use_refuted :
  Loses (Text.T "(module (func (param i32) (; c ;) (result i32)))") (CommentLost (Text.T "(; c ;)")).
Proof. apply loses_ok with (1 := comment_lost_ok _). vm_compute. reflexivity. Qed.
Theorem C33_then_refuted :
  Loses (Text.T "(module (func i32.const 1 if (; c ;) nop end))") (CommentLost (Text.T "(; c ;)")).
Proof. apply loses_ok with (1 := comment_lost_ok _). vm_compute. reflexivity. Qed.
