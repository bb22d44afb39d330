(** Property C58: the layout of formatted text. *)

From Coq Require Import String List NArith Bool Arith Lia.
From Verif Require Import Text Kind Green SpecParser SpecSyntax Lexer LexerFacts Winnow Grammar Sem Lossless Total
  Bounds Lang TokForm Shape ThmParser ThmSyntax Red LineIndex Cursor Doc Ast Nav NavSpec NavFacts SpecAction Action ThmAction
  SpecFormat Format FmtLang FmtPieces FmtSteps FmtTrivia FmtRun FmtNode FmtTree FmtDoc FmtParse FmtRequest ThmFormat
  ThmReparse FmtEmit FmtPlain FmtAgain ThmAgain SpecLayout FmtLayout.
From Verif Require SpecComplete ThmComplete.
Import ListNotations.
Local Open Scope list_scope.

Lemma modules_lay o cs : WFs o cs -> forall l pre p1 p2 prev first,
  cs = pre ++ l -> known cs p1 -> known cs p2 -> Forall RootEl l -> run_end l = true ->
  (prev = LINE_COMMENT -> l = [] \/ ws_lf l = true) ->
  flatl 0 (root_docs o prev first (items o None p1 p2 l)) ++ [Line 0] = lay_modules (indent_width o) (fix_comments o) first l.
Proof.
  intros HW. induction l as [|g l IH]; intros pre p1 p2 prev first E K1 K2 HR Hr Hp; [reflexivity|].
  inversion HR as [|? ? Hg HR']; subst. cbn [run_end] in Hr. apply andb_prop in Hr as [Hr1 Hr2].
  set (cs := pre ++ g :: l) in *.
  assert (Hin : In g cs) by (unfold cs; apply in_elt).
  assert (Kg : known cs (Some g)) by (right; eauto).
  assert (HWg : WF o g) by (unfold WFs in HW; rewrite Forall_forall in HW; auto).
  specialize (IH (pre ++ [g]) (Some g) p1 (gkind g) false ltac:(unfold cs; now rewrite <- app_assoc) Kg K1 HR' Hr2).
  pose proof (known_ignore o cs p2 HW K2) as Hi.
  assert (Hi2 : should_ignore o (or_else p2 None) = false) by (destruct p2; [exact Hi|reflexivity]).
  cbn [items root_docs i_el i_prev i_doc lay_modules]. rewrite flatl_app, <- app_assoc, IH.
  2:{ intros Eg. destruct g as [k t|]; cbn [gkind] in Eg; subst.
      - destruct l as [|x l]; [now left|]. right. exact Hr1.
      - cbn [RootEl] in Hg. discriminate. }
  f_equal. destruct g as [k t|k c].
  - cbn [RootEl] in Hg. pose proof (WF_tok _ _ _ HWg) as (Hne & _).
    assert (HT : TrivEl (Tok k t)).
    { pose proof (WFs_good o [Tok k t] ltac:(now constructor)) as X. inversion X as [|? ? X1 _]; subst. split; [|exact X1].
      cbn [significant]. now rewrite Hg. }
    destruct k; try discriminate Hg; try congruence.
    + destruct first; [reflexivity|]. destruct l as [|x l]; [reflexivity|]. cbn [items nilb orb].
      rewrite <- (flatl_gap o). unfold gap_docs. destruct (count_lf t) as [|n] eqn:Ec; [|reflexivity].
      destruct (kind_eqb prev LINE_COMMENT) eqn:El; [|reflexivity]. apply kind_eqb_eq in El. exfalso.
      destruct (Hp El) as [X|X]; [discriminate|]. cbn [ws_lf] in X. apply gap_lines in X as (n & X). congruence.
    + exact (flatl_trivia o 0 _ HT).
    + exact (flatl_trivia o 0 _ HT).
  - cbn [RootEl] in Hg. subst k. rewrite Hi2, (proj2 (kind_eqb_eq MODULE MODULE) eq_refl), flatl_one.
    now apply all_lay.
Qed.

(** What the theorem says of settings: a text is as wide as it is long, and a
    line is broken where it would be wider than [width]. *)
Definition Measures (s : settings) (width : nat) : Prop := f_measure s = tlen /\ f_fits s = rest_fits tlen width.
Definition new_line_of (s : settings) : text := if f_crlf s then [c_cr; c_lf] else [c_lf].
Definition indentation_of (s : settings) : nat -> text :=
  if f_tabs s then tabs_blanks (indent_width (f_options s)) else blanks.

Lemma text_of_ext width nl f g l : (forall n, f n = g n) -> forall col, text_of width nl f col l = text_of width nl g col l.
Proof.
  intros H. induction l as [|[t| |n| |n] l IH]; intros col; cbn [text_of]; rewrite ?IH, ?H; try reflexivity.
  all: destruct (room width (S col) l); rewrite ?IH; reflexivity.
Qed.
Lemma print_text s width d n : Measures s width ->
  print s (DNest n d) = text_of width (new_line_of s) (indentation_of s) 0 (flat n d).
Proof.
  intros [H1 H2]. pose proof (printed_pieces width (layout_of s) H1 H2 d n [] 0) as E.
  cbn [flatr flat_map] in E. cbn [text_of] in E. rewrite !app_nil_r in E. unfold print. cbn [print_doc Nat.add].
  rewrite <- E. apply text_of_ext. intros m. unfold indentation_of, indentation. cbn [layout_of tabs tab_size].
  destruct (f_tabs s); reflexivity.
Qed.
Lemma print_nest s d : print s d = print s (DNest 0 d).
Proof. reflexivity. Qed.

Lemma document_lay o dbg src cs : parse dbg src = Parsed (Node ROOT cs) [] -> Fine (directive o) (Node ROOT cs) ->
  flat 0 (gdoc o None (Node ROOT cs)) = lay_document (indent_width o) (fix_comments o) (Node ROOT cs).
Proof.
  intros H HF. rewrite gdoc_node. unfold node_doc. cbn [gkind].
  rewrite (proj2 (kind_eqb_eq ROOT ROOT) eq_refl). unfold root_doc. cbn [flat]. fold (flatl 0 (root_docs o WHITESPACE true (items o None None None cs) ++ [DNewLine])).
  rewrite flatl_app. apply (modules_lay o cs) with (pre := []); [|reflexivity|now left|now left| | |discriminate].
  - apply Forall_forall. intros c Hc. eapply parse_WF; eauto.
  - destruct HF as (He & Ho & _). now apply root_elements.
  - eapply parse_trivia_root; eauto. now destruct HF.
Qed.

(** The formatted text is the text of the layout. *)
Theorem C58_layout dbg src tree s width :
  parse dbg src = Parsed tree [] -> (forall t, ~ In (ERROR, t) (gtokens tree)) -> Ordinary tree ->
  StringsClosed tree -> NoDirective (directive (f_options s)) tree -> Measures s width ->
  format s tree
  = text_of width (new_line_of s) (indentation_of s) 0
      (lay_document (indent_width (f_options s)) (fix_comments (f_options s)) tree).
Proof.
  intros HP H1 H2 H3 H4 Hm.
  destruct (parse_root _ _ _ _ HP) as (cs & ->). unfold format. rewrite print_nest, (print_text _ width _ _ Hm).
  now rewrite (document_lay _ dbg src).
Qed.
Print Assumptions C58_layout.

(** The request: lines of 80 bytes, the editor's tab size, blanks or tabs as
    the editor says, line feeds, and comments as they are. *)
Theorem C58_formatting src tree tab spaces :
  parse false src = Parsed tree [] -> (forall t, ~ In (ERROR, t) (gtokens tree)) -> Ordinary tree ->
  StringsClosed tree -> NoDirective (Text.T "fmt-ignore") tree ->
  exists r, formatting (request_settings tab spaces) (new_line_index src) tree
    = Ans [(r, text_of 80 [c_lf] (if spaces then blanks else tabs_blanks tab) 0 (lay_document tab false tree))]
    /\ line_col (new_line_index src) 0 = Some (fst r)
    /\ line_col (new_line_index src) (tlen src) = Some (snd r).
Proof.
  intros HP H1 H2 H3 H4. destruct (C32_formatting src tree (request_settings tab spaces) HP) as (r & E & H). exists r.
  split; [|exact H]. rewrite E. rewrite (C58_layout false src tree (request_settings tab spaces) 80); auto; [|split; reflexivity].
  destruct spaces; reflexivity.
Qed.
Print Assumptions C58_formatting.

(** Formatting a range: the smallest node that contains the range is laid out
    with the column it starts in as its indentation. *)
Theorem C58_range src tree tab spaces (r : range) a b :
  parse false src = Parsed tree [] -> (forall t, ~ In (ERROR, t) (gtokens tree)) -> Ordinary tree ->
  StringsClosed tree -> NoDirective (Text.T "fmt-ignore") tree ->
  rowan_range (new_line_index src) (fst r) (snd r) = RangeOk a b -> b <= tlen src ->
  exists n r' l, range_formatting (request_settings tab spaces) (new_line_index src) tree r
      = Ans [(r', text_of 80 [c_lf] (if spaces then blanks else tabs_blanks tab) 0 l)]
    /\ InTree tree n /\ SpecAction.Encloses n a b
    /\ (forall x, InTree tree x -> Red.is_node x = true -> Within a b x -> Desc x n)
    /\ line_col (new_line_index src) (estart n) = Some (fst r')
    /\ line_col (new_line_index src) (eend n) = Some (snd r')
    /\ l = if kind_eqb (gkind (el n)) ROOT then lay_document tab false tree else lay tab false (snd (fst r')) (el n).
Proof.
  intros H H1 H2 H3 H4 Er Hb. set (s := request_settings tab spaces).
  assert (HF : Fine (directive (f_options s)) tree) by (repeat split; auto).
  pose proof (C02_no_errors_lossless _ _ _ H) as El.
  destruct (range_node_in tree a b) as [Hn Hcase]. set (n := range_node tree a b) in *.
  assert (Hab : a <= b).
  { unfold rowan_range in Er. destruct (offset (new_line_index src) (fst r)) as [x|]; [|discriminate].
    destruct (offset (new_line_index src) (snd r)) as [y|]; [|discriminate].
    destruct (Nat.leb_spec x y) as [L|]; [|discriminate]. injection Er as <- <-. exact L. }
  assert (Hlen : eend n <= tlen src /\ estart n <= eend n).
  { pose proof Hn as X. apply Desc_range in X as [_ X]. unfold eend in *. cbn in X. rewrite (glen_tlen tree), El in X. unfold estart. lia. }
  unfold range_formatting. rewrite Er. unfold format_range. fold n.
  destruct (line_col_total src (estart n)) as (l & c & E1 & O1); [lia|].
  destruct (line_col_total src (eend n)) as (l' & c' & E2 & _); [lia|].
  rewrite E1. cbn [amust abind].
  assert (Hdoc : exists d, format_node (f_options s) (two_before n) (el n) = Some d
    /\ flat c d = if kind_eqb (gkind (el n)) ROOT then lay_document tab false tree else lay tab false c (el n)).
  { pose proof (no_directive_ignore (f_options s) _ _ H4 Hn) as Hi. unfold format_node.
    pose proof Hn as Hn0. apply Desc_top in Hn as [Hn|(x & Hx & Hn)].
    - rewrite <- Hn in *. destruct (parse_root _ _ _ _ H) as (cs & ->). cbn [root_of el gkind].
      rewrite (proj2 (kind_eqb_eq ROOT ROOT) eq_refl). eexists. split; [reflexivity|].
      assert (c = 0) as ->.
      { change (estart (root_of (Node ROOT cs))) with 0 in O1. unfold offset in O1. cbn [fst snd] in O1.
        destruct (start_offset (new_line_index src) l) as [z|]; [|discriminate]. injection O1 as O1. lia. }
      exact (document_lay (f_options s) false src cs H HF).
    - destruct Hcase as [Hr|[Hr _]].
      { exfalso. apply child_in in Hx as (u & g & v & _ & ->). assert (U : ups n <> []).
        { clear -Hn. induction Hn as [|p q Hp IH Hq]; [discriminate|]. apply child_in in Hq as (? & ? & ? & _ & ->). discriminate. }
        rewrite Hr in U. now apply U. }
      unfold Red.is_node in Hr. destruct (el n) as [|k cs] eqn:En; [discriminate|].
      apply Desc_Sub in Hn. rewrite En in Hn. apply child_in in Hx as (u & g & v & Eg & ->). cbn [el] in Hn.
      destruct (parse_root _ _ _ _ H) as (rs & ->). cbn [root_of el gchildren] in Eg.
      assert (Hin : In g rs) by (rewrite Eg; apply in_elt).
      pose proof (parse_no_root _ _ _ _ _ _ H Hin Hn) as Hk. cbn [gkind].
      destruct (kind_eqb k ROOT) eqn:Ek; [apply kind_eqb_eq in Ek; contradiction|].
      assert (HG : WF (f_options s) (Node k cs)) by (eapply WF_sub; [eapply parse_WF; eauto|exact Hn]).
      destruct (shape_of k) as [sh|] eqn:Esh.
      + eexists. split; [reflexivity|]. apply (all_lay (f_options s) (Node k cs) HG eq_refl _ Hi).
      + exfalso. apply (no_production _ _ _ HG). destruct k; try reflexivity; try discriminate Esh. contradiction. }
  destruct Hdoc as (d & Ed & Hdoc). rewrite Ed. cbn [amust abind fst snd]. unfold lsp_range. rewrite E1, E2. cbn [amust abind].
  rewrite (print_text s 80 d c (conj eq_refl eq_refl)), Hdoc.
  exists n, (l, c, (l', c')). eexists. split; [destruct spaces; reflexivity|]. cbn [fst snd].
  split; [exact Hn|]. split; [|split; [|split; [exact E1|split; [exact E2|reflexivity]]]].
  - destruct Hcase as [->|[_ Hr]]; [|exact Hr]. split; cbn; [lia|]. rewrite glen_tlen, El. exact Hb.
  - intros x Hx Nx [W1 W2]. unfold n, range_node. apply visited_last; auto.
Qed.
Print Assumptions C58_range.

(** ** Examples *)

(** The document of [C50_example] meets the conditions of the theorems; this
    is what the layout makes of it. *)
Definition Laid (src : text) (s : settings) (width : nat) (laid : text) : Prop :=
  exists tree, parse false src = Parsed tree [] /\ (forall t, ~ In (ERROR, t) (gtokens tree)) /\ Ordinary tree
    /\ StringsClosed tree /\ NoDirective (Text.T "fmt-ignore") tree
    /\ text_of width (new_line_of s) (indentation_of s) 0
         (lay_document (indent_width (f_options s)) (fix_comments (f_options s)) tree) = laid.
Lemma laid_ok src s width laid :
  match parse false src with
  | Parsed tree [] =>
      fineb tree
      && text_eqb (text_of width (new_line_of s) (indentation_of s) 0
                     (lay_document (indent_width (f_options s)) (fix_comments (f_options s)) tree)) laid
  | _ => false
  end = true -> Laid src s width laid.
Proof.
  unfold Laid. destruct (parse false src) as [tree [|]| |] eqn:E; try discriminate. intros H. apply andb_prop in H as [H1 H2].
  apply fineb_ok in H1 as (A & B & C & D). exists tree. split; [reflexivity|]. repeat (split; [assumption|]). now apply text_eqb_eq.
Qed.

Definition loose_laid : text := unlines
  [ "(module $m"; "  (type $t (func (param i32 i32) (result i32)))"; "  (import ""env"" ""f"" (func $f (type $t)))";
    "  (func $g (export ""g"") (param $x i32) (param i32) (result i32) (local i64)"; ""; "    local.get $x"; "";
    "    if (result i32)"; "      i32.const 1"; "    else"; "      i32.const 2"; "    end"; "";
    "    (if (result i32)"; "      (i32.const 1)"; "      (then"; "        (i32.add"; "          (i32.const 1)"; "";
    "          (i32.const 2)))"; "      (else"; "        i32.const 3))"; "    i32.add)"; "";
    "  (data"; "    (i32.const 0) ""a"" ""b"")) (module)"; ""; "(module"; "  (func"; "    nop))" ]%string.
Example C58_example : Measures (request_settings 2 true) 80 /\ Laid loose_src (request_settings 2 true) 80 loose_laid.
Proof. split; [split; reflexivity|]. apply laid_ok. vm_compute. reflexivity. Qed.

(** Long lines are broken, tabs are used as far as they go: a document with
    indentation by tabs of four columns and lines of 60 bytes. *)
Definition long_src : text := unlines
  [ "(module (func $long (param $first i32) (param $second i32) (param $third i32) (result i32)";
    "(local $some_local i32) (local $another_local i64) local.get $first)";
    "(data (offset i32.const 0) ""some data of the module"" ""some more data of the module""))" ]%string.
Definition t1 (s : string) : text := c_tab :: Text.T s.
Definition long_laid : text :=
  concat (map (fun t : text => (t ++ [c_lf])%list)
  [ Text.T "(module"; t1 "(func $long"; c_tab :: t1 "(param $first i32) (param $second i32) (param $third i32) (result i32)";
    c_tab :: t1 "(local $some_local i32) (local $another_local i64)"; c_tab :: t1 "local.get $first)";
    t1 "(data"; c_tab :: t1 "(offset"; c_tab :: c_tab :: t1 "i32.const 0) ""some data of the module""";
    t1 """some more data of the module""))" ]).
Example C58_long : Laid long_src (request_settings 4 false) 60 long_laid.
Proof. apply laid_ok. vm_compute. reflexivity. Qed.

(** Comments: in the header of a function, after instructions, in front of an
    operand, between modules; those at the start of a [then] branch without
    parentheses and in front of the first result are dropped. *)
Definition commented_src : text := unlines
  [ "(;a;)   (module (;b;) $m ;; c"; " (;d;)(func (;e;)(param i32) (;dropped;) (result i32)(;f;)"; "(local i32) ;;g"; ""; "";
    "if (;dropped;) nop ;;h"; "(;i;) else (;j;) nop end   (i32.add (;k;) (local.get   (;l;) 0(;m;))"; ""; "(;n;) (local.get 1)";
    ") ) (;o;)"; ""; " (data (offset i32.const 0) ;;p"; """a"" (;q;) ""b""))(;r;)   (module) ;; s" ]%string.
Definition commented_laid : text := unlines
  [ "(;a;) (module (;b;) $m ;; c"; "  (;d;)(func (;e;)(param i32)(result i32) (;f;)"; "  (local i32) ;;g"; "";
    "    if"; "      nop ;;h"; "    (;i;) else (;j;) nop"; "    end"; "    (i32.add (;k;) (local.get (;l;) 0 (;m;))"; "";
    "      (;n;) (local.get 1))) (;o;)"; ""; "  (data"; "    (offset"; "      i32.const 0) ;;p"; "  ""a"" (;q;) ""b""))(;r;) (module) ;; s" ]%string.
Example C58_comments : Laid commented_src (request_settings 2 true) 80 commented_laid.
Proof. apply laid_ok. vm_compute. reflexivity. Qed.

(** Formatted text may have lines that end in blanks: after an empty line an
    abbreviated offset starts one more line. *)
Definition blank_line_src : text := unlines ["(module (data (memory 0)"; ""; "(i32.const 0) ""x""))"]%string.
Theorem C58_trailing_blanks_refuted :
  exists tree before rest, parse false blank_line_src = Parsed tree [] /\ (forall t, ~ In (ERROR, t) (gtokens tree)) /\ Ordinary tree
    /\ StringsClosed tree /\ NoDirective (Text.T "fmt-ignore") tree
    /\ format (request_settings 2 true) tree = before ++ Text.T "  " ++ [c_lf] ++ rest.
Proof.
  assert (H : Laid blank_line_src (request_settings 2 true) 80
                   (unlines ["(module"; "  (data (memory 0)"; ""]%string ++ Text.T "  " ++ [c_lf]
                    ++ unlines ["    (i32.const 0) ""x""))"]%string)) by (apply laid_ok; vm_compute; reflexivity).
  destruct H as (tree & H1 & H2 & H3 & H4 & H5 & H6). exists tree. eexists. eexists. repeat (split; [assumption|]).
  rewrite (C58_layout false blank_line_src tree (request_settings 2 true) 80 H1 H2 H3 H4 H5 (conj eq_refl eq_refl)). exact H6.
Qed.
Print Assumptions C58_trailing_blanks_refuted.
