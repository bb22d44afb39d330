(** Property C49: formatting a well-formed document gives a well-formed
    document with the same syntax tree, up to white space and comments. *)

From Coq Require Import String List NArith Bool Arith Lia.
From Verif Require Import Text Kind Green SpecParser SpecSyntax Lexer LexerFacts Winnow Grammar Sem Lossless Total
  Bounds Lang TokForm Shape ThmParser ThmSyntax Red LineIndex Cursor Doc Ast Nav NavSpec NavFacts SpecAction Action ThmAction
  SpecFormat Format FmtLang FmtPieces FmtSteps FmtTrivia FmtRun FmtNode FmtTree FmtDoc FmtParse FmtRequest ThmFormat
  Respace Relex.
From Verif Require SpecComplete ThmComplete.
Import ListNotations.
Notation Document := SpecComplete.Document.

(** ** Tokens of a well-formed document *)

Lemma separated_form ts : SpecComplete.Separated ts -> forall k t, In (k, t) ts -> SpecComplete.TokenForm k t.
Proof.
  induction ts as [|[k t] ts IH]; [intros _ ? ? []|]. intros (H1 & _ & H3) k' t' [E|Hin]; [now injection E as <- <-|auto].
Qed.
Lemma document_form tree : Document tree -> forall k t, In (k, t) (gtokens tree) -> SpecComplete.TokenForm k t.
Proof. intros (ms & tl & -> & _ & _ & H). now apply separated_form. Qed.
Lemma document_fine d tree : Document tree -> Ordinary tree -> NoDirective d tree -> Fine d tree.
Proof.
  intros H Ho Hd. pose proof (document_form _ H) as F. split; [|split; [exact Ho|split; [|exact Hd]]].
  - intros t Hin. now destruct (F _ _ Hin).
  - intros t Hin. now destruct (F _ _ Hin).
Qed.

Lemma body_snoc m : CommentBody m -> CommentBody (m ++ Text.T " ").
Proof.
  induction 1 as [|c m Hd Hm IH|a b Ha IHa Hb IHb]; cbn [app].
  - constructor; [|constructor]. intros d r [<-|[<-|[]]] E; discriminate E.
  - constructor; [|exact IH]. intros d r Hin E.
    destruct m as [|c2 m].
    + destruct Hin as [<-|[<-|[]]]; discriminate E.
    + apply (Hd d (m ++ Text.T ";)") Hin). destruct Hin as [<-|[<-|[]]]; injection E as -> -> E; reflexivity.
  - rewrite <- !app_assoc. now apply CB_nest.
Qed.
Lemma body_cons m : CommentBody m -> CommentBody (Text.T " " ++ m).
Proof. intros H. constructor; [|exact H]. intros d r [<-|[<-|[]]] E; discriminate E. Qed.
Lemma printed_form b k t u : SpecComplete.TokenForm k t -> Printed b (k, t) u -> SpecComplete.TokenForm k u.
Proof.
  intros H HP. inversion HP as [|r Hb|a e r Hb Ha He]; subst; [exact H| |].
  - destruct H as [(r' & E & H) _]. split; [|exact I]. exists (Text.T " " ++ r). split; [reflexivity|].
    injection E as E. subst r'. constructor; [split; discriminate|exact H].
  - destruct H as [(m & E & H) _]. split; [|exact I]. exists (a ++ r ++ e).
    injection E as E. apply app_inv_tail in E. subst m. split; [now rewrite <- !app_assoc|].
    assert (X : CommentBody (r ++ e)) by (destruct He as [<-|[<-|[]]]; [now rewrite app_nil_r|now apply body_snoc]).
    destruct Ha as [<-|[<-|[]]]; [exact X|now apply body_cons].
Qed.

(** Two tokens of the same kind, the second printed for the first. *)
Definition PrintedAs (b : bool) (p q : kind * text) : Prop := fst p = fst q /\ Printed b p (snd q).

Lemma printed_as b l us : Forall2 (Printed b) l us -> Forall2 (PrintedAs b) l (combine (map fst l) us).
Proof.
  induction 1 as [|p u l us HP _ IH]; [constructor|]. cbn [map combine]. constructor; [|exact IH]. split; [reflexivity|exact HP].
Qed.
Lemma printed_forms b l us : (forall k t, In (k, t) l -> SpecComplete.TokenForm k t) -> Forall2 (Printed b) l us ->
  Forall2 SpecComplete.TokenForm (map fst l) us.
Proof.
  intros H HF. induction HF as [|[k t] u l us HP _ IH]; [constructor|]. cbn [map fst]. constructor.
  - eapply printed_form; [|exact HP]. apply H. now left.
  - apply IH. intros k' t' Hin. apply H. now right.
Qed.
Lemma printed_solid b l us : Forall2 (PrintedAs b) l us -> filter solid us = filter solid l.
Proof.
  induction 1 as [|[k t] [k' u] l us [E HP] _ IH]; [reflexivity|]. cbn [fst snd] in *. subst k'. cbn [filter].
  rewrite IH. inversion HP; subst; reflexivity.
Qed.
Lemma solid_visible ts : filter solid (filter visible ts) = filter solid ts.
Proof.
  induction ts as [|[k t] ts IH]; [reflexivity|]. cbn [filter]. unfold visible at 1. cbn [fst].
  destruct (kind_eqb k WHITESPACE) eqn:E; cbn [negb filter].
  - apply kind_eqb_eq in E. subst k. exact IH.
  - now rewrite IH.
Qed.

Theorem C49_reparses dbg tree s :
  Document tree -> Ordinary tree -> NoDirective (directive (f_options s)) tree ->
  exists tree', parse dbg (format s tree) = Parsed tree' [] /\ bare tree' = bare tree
    /\ Document tree'
    /\ Forall2 (PrintedAs (fix_comments (f_options s))) (shown (keep tree)) (shown tree').
Proof.
  intros Hd Ho Hn. pose proof (ThmComplete.C48_complete true tree Hd) as HP.
  pose proof (document_fine _ _ Hd Ho Hn) as HF. pose proof (document_form _ Hd) as Ht.
  destruct (parse_root _ _ _ _ HP) as (cs & ->). set (tree := Node ROOT cs) in *.
  destruct (document_ok (f_options s) cs) as (A & B).
  - apply Forall_forall. intros c Hc. eapply parse_WF; eauto.
  - now apply root_elements; apply HF.
  - exact (parse_trivia_root _ _ _ _ HP (proj1 HF) eq_refl).
  - fold tree in A, B. set (b := fix_comments (f_options s)).
    assert (Hk : forall k t, In (k, t) (gtokens (keep tree)) -> SpecComplete.TokenForm k t).
    { intros k t Hin. apply Ht. eapply Thin_in; [apply keep_thin|exact Hin]. }
    assert (HL : Forall2 (Printed b) (shown (keep tree)) (leaves (f_options s) (keep tree))).
    { apply leaves_shown. intros k t Hin. now apply Hk. }
    assert (HR : Rend (pcs (gdoc (f_options s) None tree)) (format s tree)).
    { unfold format, print. apply print_rend. apply layout_lines. }
    destruct (relex _ _ A HR (map fst (shown (keep tree)))) as (ts & E1 & E2 & E3).
    + rewrite B. eapply printed_forms; [|exact HL]. intros k t Hin. apply Hk. unfold shown in Hin. now apply filter_In in Hin.
    + intros Hin. apply in_map_iff in Hin as ([k t] & E & Hin). cbn [fst] in E. subst k. apply filter_In in Hin as [_ Hin].
      discriminate.
    + rewrite B in E2. pose proof (printed_as _ _ _ HL) as HA. rewrite <- E2 in HA.
      destruct (respace_document tree ts Hd) as (tree' & D & G & Hb).
      * unfold ntok. rewrite <- solid_visible, (printed_solid _ _ _ HA). unfold shown. rewrite solid_visible.
        apply Thin_filter; [|apply keep_thin]. intros k t Hk'. unfold solid. cbn [fst]. now rewrite Hk'.
      * exact E3.
      * assert (X : gtext tree' = format s tree).
        { rewrite <- E1, <- G. apply gtext_tokens. }
        exists tree'. split; [rewrite <- X; now apply ThmComplete.C48_complete|]. split; [exact Hb|]. split; [exact D|].
        unfold shown at 2. rewrite G. exact HA.
Qed.
Print Assumptions C49_reparses.

(** ** The formatted document can be formatted again *)

Lemma bare_kind g : significant (bare g) = significant g.
Proof. now destruct g. Qed.
Definition same_head (a b : green) : Prop :=
  match a, b with
  | Tok k t, Tok k' t' => k = k' /\ t = t'
  | Node k _, Node k' _ => k = k'
  | _, _ => False
  end.
Lemma bare_same a b : bare a = bare b -> same_head a b.
Proof. destruct a, b; cbn [bare]; intros E; try discriminate E; injection E; cbn; auto. Qed.
Lemma matches_same r l : Matches r l -> forall l', Forall2 same_head l l' -> Matches r l'.
Proof.
  induction 1 as [s|k t|k cs| |a b l m _ IHa _ IHb|a b l _ IH|a b l _ IH|a|a l m _ IHa _ IHb]; intros l' F.
  - inversion F as [|? g ? ? H F']; subst. inversion F'; subst. destruct g; [destruct H as [<- <-]|contradiction]. constructor.
  - inversion F as [|? g ? ? H F']; subst. inversion F'; subst. destruct g; [destruct H as [<- <-]|contradiction]. constructor.
  - inversion F as [|? g ? ? H F']; subst. inversion F'; subst. destruct g; [contradiction|]. cbn in H. subst. constructor.
  - inversion F; subst. constructor.
  - apply Forall2_app_inv_l in F as (l1 & l2 & F1 & F2 & ->). constructor; auto.
  - apply M_OrL; auto.
  - apply M_OrR; auto.
  - inversion F; subst. constructor.
  - apply Forall2_app_inv_l in F as (l1 & l2 & F1 & F2 & ->). constructor; auto.
Qed.
Lemma filter_bare cs : filter significant (map bare cs) = map bare (filter significant cs).
Proof.
  induction cs as [|c cs IH]; [reflexivity|]. cbn [map filter]. rewrite bare_kind. destruct (significant c); cbn [map]; congruence.
Qed.
Lemma bare_children k cs k' cs' : bare (Node k cs) = bare (Node k' cs') ->
  k = k' /\ map bare (filter significant cs) = map bare (filter significant cs').
Proof. cbn [bare]. rewrite !filter_bare. intros E. now injection E. Qed.
Lemma map_bare_same l : forall l', map bare l = map bare l' -> Forall2 same_head l l'.
Proof.
  induction l as [|a l IH]; intros [|b l'] E; try discriminate; [constructor|]. injection E as E1 E2.
  constructor; [now apply bare_same|auto].
Qed.
Lemma sub_bare g k cs : Sub g (Node k cs) -> forall h, bare h = bare g ->
  exists cs', Sub h (Node k cs') /\ bare (Node k cs') = bare (Node k cs).
Proof.
  remember (Node k cs) as x eqn:Ex. intros H. revert Ex. induction H as [g|k0 cs0 c g Hc Hsub IH]; intros Ex h E.
  - subst g. destruct h as [|k' cs']; [discriminate E|]. destruct (bare_children _ _ _ _ E) as [-> _].
    exists cs'. split; [constructor|exact E].
  - destruct h as [|k' cs']; [discriminate E|]. destruct (bare_children _ _ _ _ E) as [-> Em].
    assert (Hs : significant c = true).
    { destruct c as [kc tc|kc cc]; [|reflexivity]. subst g. inversion Hsub. }
    assert (Hin : In (bare c) (map bare (filter significant cs'))).
    { rewrite Em. apply in_map. now apply filter_In. }
    apply in_map_iff in Hin as (c' & Ec & Hin). apply filter_In in Hin as [Hin _].
    destruct (IH Ex c' Ec) as (cs'' & A & B). exists cs''. split; [|exact B]. eapply Sub_child; eauto.
Qed.
Lemma ordinary_bare tree tree' : bare tree' = bare tree -> Ordinary tree -> Ordinary tree'.
Proof.
  intros E H k cs Hs. destruct (sub_bare _ _ _ Hs tree (eq_sym E)) as (cs' & Hs' & E').
  destruct (bare_children _ _ _ _ E') as [_ Em]. eapply matches_same; [exact (H _ _ Hs')|]. now apply map_bare_same.
Qed.

Lemma directive_spaced d r : Directive d (Text.T ";; " ++ r) -> Forall (fun c => ~ White c) (firstn 1 d) -> d <> [] ->
  Directive d (Text.T ";;" ++ r).
Proof.
  intros (w & x & E & Hw & Hx) Hd Hn. change (Text.T ";; " ++ r) with (Text.T ";;" ++ Text.T " " ++ r) in E.
  apply app_inv_head in E. destruct w as [|c w].
  - exfalso. destruct d as [|c d]; [congruence|]. cbn in E. injection E as <- E. inversion Hd as [|? ? H _]; subst.
    apply H. right. now left.
  - injection E as <- E. inversion Hw; subst. exists w, x. auto.
Qed.
(** The directive does not start with white space. *)
Definition Worded (d : text) : Prop := exists c r, d = c :: r /\ ~ White c.
Theorem C49_again tree s tree' :
  Document tree -> Ordinary tree -> NoDirective (directive (f_options s)) tree -> Worded (directive (f_options s)) ->
  parse true (format s tree) = Parsed tree' [] ->
  Document tree' /\ Ordinary tree' /\ NoDirective (directive (f_options s)) tree'.
Proof.
  intros Hd Ho Hn Hw Hp. destruct (C49_reparses true tree s Hd Ho Hn) as (t2 & E & Hb & D & F).
  rewrite Hp in E. injection E as <-. split; [exact D|]. split; [now apply ordinary_bare with tree|].
  intros t Hin Hdir.
  assert (Hs : In (LINE_COMMENT, t) (shown tree')) by (apply filter_In; split; [exact Hin|reflexivity]).
  assert (X : exists p, In p (shown (keep tree)) /\ PrintedAs (fix_comments (f_options s)) p (LINE_COMMENT, t)).
  { clear -F Hs. induction F as [|p q l l' H _ IH]; [destruct Hs|]. destruct Hs as [->|Hs]; [exists p; split; [now left|exact H]|].
    destruct (IH Hs) as (p' & A & B). exists p'. split; [now right|exact B]. }
  destruct X as ([k u] & Hu & [Ek HP]). cbn [fst snd] in Ek, HP. subst k.
  apply filter_In in Hu as [Hu _]. apply (Thin_in _ _ _ (keep_thin tree)) in Hu. apply (Hn u Hu).
  inversion HP; subst; [exact Hdir|]. destruct Hw as (c & d & Ed & Hc). apply directive_spaced; [exact Hdir| |].
  - rewrite Ed. constructor; [exact Hc|constructor].
  - rewrite Ed. discriminate.
Qed.
Print Assumptions C49_again.

(** ** A document that meets the conditions *)

Example C49_example :
  Document ThmComplete.big_tree /\ Ordinary ThmComplete.big_tree
  /\ NoDirective (directive (f_options (request_settings 2 true))) ThmComplete.big_tree
  /\ Worded (directive (f_options (request_settings 2 true)))
  /\ length (filter (fun p => is_trivia_kind (fst p)) (shown ThmComplete.big_tree)) = 2.
Proof.
  split; [apply ThmComplete.documentb_ok; exact ThmComplete.C48_document|].
  split; [apply ordinaryb_ok; vm_compute; reflexivity|].
  split; [|split].
  - intros t Hin. apply absent_ok. revert t Hin.
    enough (H : forallb (fun p => match fst p with LINE_COMMENT => absent 102%N (snd p) | _ => true end)
              (gtokens ThmComplete.big_tree) = true).
    { rewrite forallb_forall in H. intros t Hin. exact (H _ Hin). }
    vm_compute. reflexivity.
  - exists 102%N, (Text.T "mt-ignore"). split; [reflexivity|]. unfold White. intros H.
    destruct H as [[[_ H]|[H _]]|H]; [now apply H|now apply H|]. cbn in H. repeat (destruct H as [H|H]; [discriminate H|]). destruct H.
  - vm_compute. reflexivity.
Qed.

(** Formatting twice may differ from formatting once: a blank line between
    the parameters and the results of a function is removed with all space
    around it; the second time a space is put there. *)
Definition gap_src : text := unlines ["(module (func (param i32)"; ""; "(result i32)))"]%string.
Theorem C49_idempotent_refuted :
  exists tree tree', parse true gap_src = Parsed tree [] /\ Document tree /\ Ordinary tree
    /\ (forall k t, In (k, t) (gtokens tree) -> k <> LINE_COMMENT /\ k <> BLOCK_COMMENT)
    /\ let s := request_settings 2 true in
       parse true (format s tree) = Parsed tree' [] /\ format s tree' <> format s tree.
Proof.
  assert (H : match parse true gap_src with
              | Parsed tree [] =>
                  ThmComplete.documentb tree && ordinaryb tree
                  && forallb (fun p => match fst p with LINE_COMMENT | BLOCK_COMMENT => false | _ => true end) (gtokens tree)
                  && match parse true (format (request_settings 2 true) tree) with
                     | Parsed tree' [] => negb (text_eqb (format (request_settings 2 true) tree')
                                                         (format (request_settings 2 true) tree))
                     | _ => false
                     end
              | _ => false
              end = true) by (vm_compute; reflexivity).
  destruct (parse true gap_src) as [tree [|]| |]; try discriminate.
  apply andb_prop in H as [H H4]. apply andb_prop in H as [H H3]. apply andb_prop in H as [H1 H2].
  destruct (parse true (format (request_settings 2 true) tree)) as [tree' [|]| |] eqn:E; try discriminate.
  exists tree, tree'. split; [reflexivity|]. split; [now apply ThmComplete.documentb_ok|]. split; [now apply ordinaryb_ok|].
  split; [|split; [exact E|]].
  - intros k t Hin. rewrite forallb_forall in H3. specialize (H3 _ Hin). cbn [fst] in H3. destruct k; split; discriminate.
  - intros X. apply negb_true_iff in H4. rewrite (proj2 (text_eqb_eq _ _) X) in H4. discriminate.
Qed.
Print Assumptions C49_idempotent_refuted.
