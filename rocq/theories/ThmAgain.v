(** Property C50: formatting a formatted document changes nothing, if the
    document has no comments and no blank lines inside type uses. *)

From Coq Require Import String List NArith Bool Arith Lia.
From Verif Require Import Text Kind Green SpecParser SpecSyntax Lexer LexerFacts Winnow Grammar Sem Lossless Total
  Bounds Lang TokForm Shape ThmParser ThmSyntax Red LineIndex Cursor Doc Ast Nav NavSpec NavFacts SpecAction Action ThmAction
  SpecFormat Format FmtLang FmtPieces FmtSteps FmtTrivia FmtRun FmtNode FmtTree FmtDoc FmtParse FmtRequest ThmFormat
  Respace Relex ThmReparse FmtEmit FmtPlain FmtFlags FmtGap FmtSame FmtAlike FmtTidy FmtAgain.
From Verif Require SpecComplete ThmComplete.
Import ListNotations.
Local Open Scope list_scope.

(** ** The conditions *)

Definition NoComments (tree : green) : Prop :=
  forall k t, In (k, t) (gtokens tree) -> k <> LINE_COMMENT /\ k <> BLOCK_COMMENT.
(** White space after a parameter or a result of a type use has at most one
    line break. *)
Definition CompactTypeUses (tree : green) : Prop :=
  forall cs before k ns w rest, Sub tree (Node TYPE_USE cs) ->
  cs = before ++ Node k ns :: Tok WHITESPACE w :: rest -> length (filter (N.eqb c_lf) w) < 2.

Lemma plain_directive d tree : NoComments tree -> NoDirective d tree.
Proof. intros H t Hin. now destruct (H _ _ Hin). Qed.

(** The children of the root of a document without comments. *)
Lemma document_row (P : green -> Prop) cs : Document (Node ROOT cs) -> Ordinary (Node ROOT cs) -> NoComments (Node ROOT cs) ->
  (forall c, In c cs -> P c) -> Row P cs.
Proof.
  intros Hd Ho Hp HP. apply (row_of P (length cs) cs (Nat.le_refl _)).
  - pose proof (root_elements cs) as HR. apply Forall_forall. intros g Hg.
    assert (He : forall t, ~ In (ERROR, t) (gtokens (Node ROOT cs))).
    { intros t Hin. now destruct (document_form _ Hd _ _ Hin). }
    specialize (HR He Ho). rewrite Forall_forall in HR. specialize (HR _ Hg). destruct g as [k t|k c]; cbn [RootEl] in HR.
    + left. destruct (plain_ws (Tok k t)) as (w & E); [|cbn [significant]; now rewrite HR|exists w; exact E].
      exact (Plain_children _ _ _ Hp Hg).
    + subst k. right. exists c. split; [reflexivity|auto].
  - intros a v w b E. destruct Hd as (ms & tl & _ & _ & _ & Hs). apply (meet _ ROOT a v w b Hs). rewrite <- E. constructor.
Qed.

Lemma document_near o cs : Document (Node ROOT cs) -> Ordinary (Node ROOT cs) -> NoComments (Node ROOT cs) ->
  forall c, In c cs -> WF o c /\ Plain c /\ Calm c /\ Led c.
Proof.
  intros Hd Ho Hp c Hc. pose proof (ThmComplete.C48_complete true _ Hd) as HP.
  split; [|split].
  - eapply parse_WF; eauto. apply document_fine; auto. now apply plain_directive.
  - exact (Plain_children _ _ _ Hp Hc).
  - exact (document_calm _ cs c Hd Hp eq_refl Hc).
Qed.

Theorem C50_idempotent dbg tree s :
  Document tree -> Ordinary tree -> NoComments tree -> CompactTypeUses tree ->
  exists tree', parse dbg (format s tree) = Parsed tree' [] /\ format s tree' = format s tree.
Proof.
  intros Hd Ho Hc Hsn. set (o := f_options s). pose proof (ThmComplete.C48_complete true tree Hd) as HP.
  pose proof (plain_directive (directive o) tree Hc) as Hn.
  pose proof (document_fine _ _ Hd Ho Hn) as HF. pose proof (document_form _ Hd) as Ht.
  destruct (parse_root _ _ _ _ HP) as (cs & ->). set (tree := Node ROOT cs) in *.
  pose proof (document_near o cs Hd Ho Hc) as HN.
  assert (HG : forall c, In c cs -> Good2 o c).
  { intros c Hin. destruct (HN c Hin) as (A & B & C & D). split; [|exact D]. repeat (split; [assumption|]).
    exact (Snug_children _ _ _ Hsn Hin). }
  destruct (document_ok o cs) as (A & B).
  - apply Forall_forall. intros c Hin. now apply HN.
  - now apply root_elements; apply HF.
  - exact (parse_trivia_root _ _ _ _ HP (proj1 HF) eq_refl).
  - fold tree in A, B. set (b := fix_comments o).
    assert (Hk : forall k t, In (k, t) (gtokens (keep tree)) -> SpecComplete.TokenForm k t).
    { intros k t Hin. apply Ht. eapply Thin_in; [apply keep_thin|exact Hin]. }
    assert (HL : Forall2 (Printed b) (shown (keep tree)) (leaves o (keep tree))).
    { apply leaves_shown. intros k t Hin. now apply Hk. }
    assert (HR : FR (fine (gdoc o None tree)) (format s tree)).
    { unfold format, print. apply print_fr. apply layout_lines. }
    rewrite <- coarse_fine in A, B.
    destruct (relex2 _ _ A HR (map fst (shown (keep tree)))) as (ts & E1 & E2 & E3 & E4).
    + rewrite B. eapply printed_forms; [|exact HL]. intros k t Hin. apply Hk. unfold shown in Hin. now apply filter_In in Hin.
    + intros Hin. apply in_map_iff in Hin as ([k t] & E & Hin). cbn [fst] in E. subst k. apply filter_In in Hin as [_ Hin].
      discriminate.
    + rewrite B in E2. pose proof (printed_as _ _ _ HL) as HA. rewrite <- E2 in HA.
      destruct (respace_document tree ts Hd) as (tree' & D & G & Hb).
      * unfold ntok. rewrite <- solid_visible, (printed_solid _ _ _ HA). unfold shown. rewrite solid_visible.
        apply Thin_filter; [|apply keep_thin]. intros k t Hk'. unfold solid. cbn [fst]. now rewrite Hk'.
      * exact E3.
      * assert (X : gtext tree' = format s tree).
        { rewrite <- E1, <- G. apply gtext_tokens. }
        exists tree'. split; [rewrite <- X; now apply ThmComplete.C48_complete|].
        assert (Ho' : Ordinary tree') by now apply ordinary_bare with tree.
        assert (Hc' : NoComments tree').
        { intros k t Hin. destruct (kind_eqb k WHITESPACE) eqn:Ek; [apply kind_eqb_eq in Ek; subst k; split; discriminate|].
          assert (Hv : In (k, t) (filter visible ts)).
          { apply filter_In. rewrite <- G. split; [exact Hin|]. unfold visible. cbn [fst]. now rewrite Ek. }
          destruct (forall2_in _ _ _ _ HA Hv) as ([k0 t0] & H1 & H2 & _). cbn [fst] in H2. subst k0.
          unfold shown in H1. apply filter_In in H1 as [H1 _]. apply (Thin_in _ _ _ (keep_thin tree)) in H1. exact (Hc _ _ H1). }
        destruct tree' as [|k' cs']; [discriminate Hb|].
        destruct (bare_children _ _ _ _ Hb) as [-> Em].
        pose proof (document_near o cs' D Ho' Hc') as HN'.
        assert (HM : forall c, In c cs' -> Near o c).
        { intros c Hin. destruct (HN' c Hin) as (N1 & N2 & N3 & N4). repeat (split; [assumption|]).
          destruct (significant c) eqn:Es; [|destruct c as [kc tc|]; [intros k l Hs; inversion Hs|discriminate Es]].
          assert (Hin' : In (bare c) (map bare (filter significant cs))).
          { rewrite <- Em. apply in_map. now apply filter_In. }
          apply in_map_iff in Hin' as (c0 & Ec & Hin0). apply filter_In in Hin0 as [Hin0 _].
          apply (Headed_bare c0 c (eq_sym Ec)). apply (Good2_headed o). auto. }
        assert (HFit : Fits (fgo [] (fine (gdoc o None tree))) (tgo None (gtokenss cs'))).
        { change (gtokenss cs') with (gtokens (Node ROOT cs')). rewrite G. now apply E4. }
        unfold format. fold o. f_equal. unfold tree in *. rewrite !gdoc_node in *. unfold node_doc in *. cbn [gkind] in *.
        rewrite (proj2 (kind_eqb_eq ROOT ROOT) eq_refl) in *. unfold root_doc in *. do 2 f_equal.
        apply (rows_again o (length cs) cs cs' (Nat.le_refl _)); auto using document_row.
Qed.
Print Assumptions C50_idempotent.

(** ** A document that meets the conditions *)

Definition no_commentsb (tree : green) : bool :=
  forallb (fun p => match fst p with LINE_COMMENT | BLOCK_COMMENT => false | _ => true end) (gtokens tree).
Lemma no_commentsb_ok tree : no_commentsb tree = true -> NoComments tree.
Proof.
  unfold no_commentsb. rewrite forallb_forall. intros H k t Hin. specialize (H _ Hin). cbn [fst] in H.
  destruct k; split; discriminate.
Qed.
Fixpoint gaps_small (cs : list green) : bool :=
  match cs with
  | [] => true
  | c :: r =>
      match c, r with
      | Node _ _, Tok WHITESPACE w :: _ => Nat.ltb (length (filter (N.eqb c_lf) w)) 2
      | _, _ => true
      end && gaps_small r
  end.
Fixpoint compactb (g : green) : bool :=
  match g with
  | Tok _ _ => true
  | Node k cs => (negb (kind_eqb k TYPE_USE) || gaps_small cs) && forallb compactb cs
  end.
Lemma gaps_small_ok a k ns w rest :
  gaps_small (a ++ Node k ns :: Tok WHITESPACE w :: rest) = true -> length (filter (N.eqb c_lf) w) < 2.
Proof.
  induction a as [|c a IH]; intros H; cbn [app gaps_small] in H; apply andb_prop in H as [H1 H2].
  - now apply Nat.ltb_lt in H1.
  - auto.
Qed.
Lemma compactb_ok tree : compactb tree = true -> CompactTypeUses tree.
Proof.
  intros H cs a k ns w rest Hs E. remember (Node TYPE_USE cs) as h eqn:Eh. revert H.
  induction Hs as [g|k0 cs0 c h Hc Hs IH]; intros H; subst.
  - cbn [compactb] in H. apply andb_prop in H as [H _]. cbn [negb orb] in H.
    replace (kind_eqb TYPE_USE TYPE_USE) with true in H by reflexivity. cbn [negb orb] in H. now apply gaps_small_ok in H.
  - cbn [compactb] in H. apply andb_prop in H as [_ H]. rewrite forallb_forall in H. auto.
Qed.

Definition loose_src : text := unlines
  [ ""; "(module   $m"; ""; ""; " (type $t (func(param i32 i32)(result i32)) )";
    "(import ""env"" ""f"" (func $f (type $t)))"; "(func $g (export ""g"")(param $x i32)"; "(param i32) (result i32) (local i64)"; "";
    "local.get $x"; ""; "if (result i32) i32.const 1 else"; "i32.const 2 end"; "";
    " (if (result i32) (i32.const 1)  (then (i32.add (i32.const 1)"; "";  "(i32.const 2))) (else i32.const 3)) i32.add)"; "";
    "(data (i32.const 0) ""a"" ""b""))  (module)"; ""; ""; ""; "(module (func nop))"; "" ]%string.
Example C50_example :
  exists tree, parse true loose_src = Parsed tree [] /\ Document tree /\ Ordinary tree /\ NoComments tree /\ CompactTypeUses tree
    /\ format (request_settings 2 true) tree <> loose_src.
Proof.
  assert (H : match parse true loose_src with
              | Parsed tree [] =>
                  ThmComplete.documentb tree && ordinaryb tree && no_commentsb tree && compactb tree
                  && negb (text_eqb (format (request_settings 2 true) tree) loose_src)
              | _ => false
              end = true) by (vm_compute; reflexivity).
  destruct (parse true loose_src) as [tree [|]| |]; try discriminate.
  apply andb_prop in H as [H H5]. apply andb_prop in H as [H H4]. apply andb_prop in H as [H H3]. apply andb_prop in H as [H1 H2].
  exists tree. split; [reflexivity|]. split; [now apply ThmComplete.documentb_ok|]. split; [now apply ordinaryb_ok|].
  split; [now apply no_commentsb_ok|]. split; [now apply compactb_ok|].
  intros X. apply negb_true_iff in H5. rewrite (proj2 (text_eqb_eq _ _) X) in H5. discriminate.
Qed.

(** Without the condition on comments the claim is false: the comment
    between the parameters and the results is dropped with the space around
    it, and the next formatting puts a space there. *)
Definition comment_src : text := unlines ["(module (func (param i32)(;x;)(result i32) nop))"]%string.
Theorem C50_comments_refuted :
  exists tree tree', parse true comment_src = Parsed tree [] /\ Document tree /\ Ordinary tree /\ CompactTypeUses tree
    /\ NoDirective (directive (f_options (request_settings 2 true))) tree
    /\ let s := request_settings 2 true in
       parse true (format s tree) = Parsed tree' [] /\ format s tree' <> format s tree.
Proof.
  assert (H : match parse true comment_src with
              | Parsed tree [] =>
                  ThmComplete.documentb tree && ordinaryb tree && compactb tree
                  && forallb (fun p => match fst p with LINE_COMMENT => false | _ => true end) (gtokens tree)
                  && match parse true (format (request_settings 2 true) tree) with
                     | Parsed tree' [] => negb (text_eqb (format (request_settings 2 true) tree')
                                                         (format (request_settings 2 true) tree))
                     | _ => false
                     end
              | _ => false
              end = true) by (vm_compute; reflexivity).
  destruct (parse true comment_src) as [tree [|]| |]; try discriminate.
  apply andb_prop in H as [H H5]. apply andb_prop in H as [H H4]. apply andb_prop in H as [H H3]. apply andb_prop in H as [H1 H2].
  destruct (parse true (format (request_settings 2 true) tree)) as [tree' [|]| |] eqn:E; try discriminate.
  exists tree, tree'. split; [reflexivity|]. split; [now apply ThmComplete.documentb_ok|]. split; [now apply ordinaryb_ok|].
  split; [now apply compactb_ok|]. split; [|split; [exact E|]].
  - intros t Hin. rewrite forallb_forall in H4. now specialize (H4 _ Hin).
  - intros X. apply negb_true_iff in H5. rewrite (proj2 (text_eqb_eq _ _) X) in H5. discriminate.
Qed.
Print Assumptions C50_comments_refuted.
