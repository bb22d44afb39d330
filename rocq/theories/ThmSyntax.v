(** Property C42: documents reported free of syntax errors are written in
    the syntax of SpecSyntax.v. *)

From Coq Require Import String List NArith Bool Arith Lia.
From Verif Require Import Text Kind Green SpecParser Lexer LexerFacts Winnow Grammar Sem
  Lossless Total Bounds Lang TokForm Shape Debug ThmParser.
From Verif Require Import SpecSyntax.
Import ListNotations.

Definition sig (o : list green) : list green := filter significant o.

(** The children a grammar term produces without reporting an error are
    matched by [r]. *)
Definition Inc (g : grammar) (r : rx) : Prop :=
  forall o, Lang instr_body true g o -> Matches r (sig o).

Lemma sig_app a b : sig (a ++ b) = sig a ++ sig b.
Proof. apply filter_app. Qed.
Lemma sig_trivia tr : Forall is_trivia_tok tr -> sig tr = [].
Proof.
  induction 1 as [|x l H _ IH]; [reflexivity|]. destruct x as [k t|k cs]; [|destruct H].
  destruct H as (H & _). cbn [sig filter significant]. rewrite H. exact IH.
Qed.


Ltac inv H := inversion H; subst; clear H.

Lemma sq_inv a b o : Matches (Sq a b) o -> exists l m, o = l ++ m /\ Matches a l /\ Matches b m.
Proof. intros H. inv H. eauto. Qed.
Lemma inc_tok k l : is_trivia_kind k = false -> Inc (GTok k l) (Tk k).
Proof.
  intros Hk o H. inv H. cbn [sig filter significant]. rewrite Hk. constructor.
Qed.
Lemma inc_keyword s : Inc (keyword s) (Kw s).
Proof.
  intros o H. unfold keyword in H. inv H.
  match goal with H : Lang _ _ _ _ |- _ => inv H end.
  match goal with H : l_verify _ _ _ = LOk _ _ |- _ => rename H into E end.
  unfold l_verify in E. destruct (word t) as [c' r'|]; [|discriminate].
  destruct (text_eqb (Text.T s) c') eqn:Et; [|discriminate]. injection E as <- <-.
  apply text_eqb_eq in Et as <-. cbn [sig filter significant]. constructor.
Qed.
Lemma inc_rparen : Inc GRParen rp.
Proof.
  intros o H. inv H; try discriminate. rewrite sig_app, sig_trivia by assumption. constructor.
Qed.
Lemma inc_triv g r : Inc g r -> Inc (GSeq GTriv g) r.
Proof.
  intros Hg o H. inv H. match goal with H : Lang _ _ GTriv _ |- _ => inv H end.
  rewrite sig_app, sig_trivia by assumption. now apply Hg.
Qed.
Lemma inc_seq a b r s : Inc a r -> Inc b s -> Inc (GSeq a b) (Sq r s).
Proof. intros Ha Hb o H. inv H. rewrite sig_app. constructor; [apply Ha|apply Hb]; assumption. Qed.
(** A term that produces nothing. *)
Lemma inc_seq_nil a b r : Inc a Eps -> Inc b r -> Inc (GSeq a b) r.
Proof.
  intros Ha Hb o H. inv H. rewrite sig_app.
  assert (E : sig o1 = []).
  { match goal with H : Lang _ _ a o1 |- _ => apply Ha in H; inversion H; reflexivity end. }
  rewrite E. apply Hb. assumption.
Qed.
Lemma inc_seq_empty a r : Inc a r -> Inc (GSeq a GEmpty) r.
Proof.
  intros Ha o H. inv H. match goal with H : Lang _ _ GEmpty _ |- _ => inv H end.
  rewrite app_nil_r. now apply Ha.
Qed.
Lemma inc_empty : Inc GEmpty Eps.
Proof. intros o H. inv H. constructor. Qed.
Lemma inc_empty_star r : Inc GEmpty (Star r).
Proof. intros o H. inv H. constructor. Qed.
Lemma inc_fail r : Inc GFail r.
Proof. intros o H. inv H. Qed.
Lemma inc_alt a b r : Inc a r -> Inc b r -> Inc (GAlt a b) r.
Proof. intros Ha Hb o H. inv H; [now apply Ha|now apply Hb]. Qed.
Lemma inc_if l p a b r : Inc a r -> Inc b r -> Inc (GIf l p a b) r.
Proof. intros Ha Hb o H. inv H; [now apply Ha|now apply Hb]. Qed.
Lemma inc_opt a r : Inc a r -> Inc (GOpt a) (Opt r).
Proof. intros Ha o H. inv H; [apply M_OrL; now apply Ha|apply M_OrR; constructor]. Qed.
Lemma inc_rep a r : Inc a r -> Inc (GRep a) (Star r).
Proof.
  intros Ha o H. remember (GRep a) as g eqn:E. induction H; try discriminate; injection E as ->.
  - constructor.
  - rewrite sig_app. constructor; [now apply Ha|now apply IHLang2].
Qed.
Lemma inc_rep1 a r : Inc a r -> Inc (GRep1 a) (Plus r).
Proof.
  intros Ha o H. inv H. rewrite sig_app. constructor; [now apply Ha|].
  now apply (inc_rep a r Ha).
Qed.
Lemma inc_till f g r s : Inc f r -> Inc g s -> Inc (GTill f g) (Sq (Star r) s).
Proof.
  intros Hf Hg o H. remember (GTill f g) as t eqn:E.
  induction H; try discriminate; injection E as -> ->.
  - change (sig o) with ([] ++ sig o). constructor; [constructor|now apply Hg].
  - specialize (IHLang2 eq_refl).
    apply sq_inv in IHLang2 as (l & m & Eq & Ml & Mm).
    rewrite sig_app, Eq, app_assoc. constructor; [|assumption].
    constructor; [now apply Hf|assumption].
Qed.
Lemma inc_till_nil f g r : Inc f r -> Inc g Eps -> Inc (GTill f g) (Star r).
Proof.
  intros Hf Hg o H. pose proof (inc_till f g r Eps Hf Hg o H) as M.
  apply sq_inv in M as (l & m & Eq & Ml & Mm).
  inv Mm. rewrite Eq, app_nil_r. exact Ml.
Qed.
Lemma inc_node k a : Inc (GNode k a) (Nd k).
Proof. intros o H. inv H. constructor. Qed.
Lemma inc_ctx m a r : Inc a r -> Inc (GCtx m a) r.
Proof. intros Ha o H. inv H. now apply Ha. Qed.
Lemma inc_retry a ns r : Inc a r -> Inc (GRetry a ns) r.
Proof.
  intros Ha o H. inv H; try discriminate. rewrite sig_app, sig_trivia by assumption. now apply Ha.
Qed.
Lemma inc_once a ns r : Inc a r -> Inc (GRetryOnce a ns) r.
Proof.
  intros Ha o H. inv H; try discriminate. rewrite sig_app, sig_trivia by assumption. now apply Ha.
Qed.
Lemma inc_must a r : Inc a r -> Inc (GMust a) r.
Proof. intros Ha o H. inv H; try discriminate. now apply Ha. Qed.
Lemma inc_orl g a b : Inc g a -> Inc g (Or a b).
Proof. intros H o L. apply M_OrL. now apply H. Qed.
Lemma inc_orr g a b : Inc g b -> Inc g (Or a b).
Proof. intros H o L. apply M_OrR. now apply H. Qed.
Lemma inc_instr_body r : Inc instr_body r -> Inc GInstr r.
Proof. intros H o L. inv L. now apply H. Qed.
Lemma inc_assoc g a b c : Inc g (Sq (Sq a b) c) -> Inc g (Sq a (Sq b c)).
Proof.
  intros H o L. apply H in L.
  apply sq_inv in L as (l & m & Eq & Ml & Mm).
  apply sq_inv in Ml as (l1 & l2 & -> & M1 & M2). rewrite Eq, <- app_assoc. constructor; [|constructor]; assumption.
Qed.

Ltac head g := lazymatch g with ?f _ => head f | _ => g end.
Ltac unf g := let h := head g in unfold h; cbn [seqs alts dispatch].

Ltac inc :=
  lazymatch goal with
  | |- Inc GFail _ => apply inc_fail
  | |- Inc (keyword _) (Kw _) => apply inc_keyword
  | |- Inc GRParen (Tk R_PAREN) => apply inc_rparen
  | |- Inc GEmpty Eps => apply inc_empty
  | |- Inc GEmpty (Star _) => apply inc_empty_star
  | |- Inc (GTok ?k _) (Tk ?k) => apply inc_tok; reflexivity
  | |- Inc (GNode ?k _) (Nd ?k) => apply inc_node
  | |- Inc (GSeq GTriv _) _ => apply inc_triv; inc
  | |- Inc (GSeq (GPeek _) _) _ => apply inc_seq_nil; inc
  | |- Inc (GSeq _ GEmpty) _ => apply inc_seq_empty; inc
  | |- Inc (GIf _ _ _ _) _ => apply inc_if; inc
  | |- Inc (GAlt _ _) _ => apply inc_alt; inc
  | |- Inc (GCtx _ _) _ => apply inc_ctx; inc
  | |- Inc (GRetry _ _) _ => apply inc_retry; inc
  | |- Inc (GRetryOnce _ _) _ => apply inc_once; inc
  | |- Inc (GMust _) _ => apply inc_must; inc
  | |- Inc GInstr _ => apply inc_instr_body; inc
  | |- Inc (GOpt _) (Or _ Eps) => first [apply inc_opt; inc | other]
  | |- Inc (GRep _) (Star _) => apply inc_rep; inc
  | |- Inc (GRep1 _) (Sq _ (Star _)) => apply inc_rep1; inc
  | |- Inc (GTill _ _) (Star _) => apply inc_till_nil; inc
  | |- Inc (GTill _ _) (Sq (Star _) _) => apply inc_till; inc
  | |- Inc (GSeq _ _) _ => other
  | |- Inc (keyword _) _ => other
  | |- Inc (GTok _ _) _ => other
  | |- Inc (GNode _ _) _ => other
  | |- Inc (GOpt _) _ => other
  | |- Inc (GRep _) _ => other
  | |- Inc (GRep1 _) _ => other
  | |- Inc (GTill _ _) _ => other
  | |- Inc GEmpty _ => other
  | |- Inc GRParen _ => other
  | |- Inc ?g _ => unf g; inc
  end
with other :=
  lazymatch goal with
  | |- Inc _ (Or _ _) => first [solve [apply inc_orl; inc] | apply inc_orr; inc]
  | |- Inc (GSeq (GTill _ _) _) (Sq (Star _) (Sq _ _)) =>
      first [solve [apply inc_seq; inc] | solve [apply inc_assoc; apply inc_seq; inc]]
  | |- Inc (GSeq _ _) (Sq _ _) => apply inc_seq; inc
  end.

(** Every grammar rule of [g] follows the production of its kind. *)
Definition Good (g : grammar) : Prop := forall k a, In (k, a) (node_rules g) -> Inc a (production k).

Lemma good_node k a : Inc a (production k) -> Good a -> Good (GNode k a).
Proof. intros Ha Hg k' a' [E|H]; [injection E as <- <-; exact Ha|now apply Hg]. Qed.
Lemma good_nil g : node_rules g = [] -> Good g.
Proof. intros E k a H. rewrite E in H. destruct H. Qed.
Lemma good_two g a b : node_rules g = node_rules a ++ node_rules b -> Good a -> Good b -> Good g.
Proof. intros E Ha Hb k c H. rewrite E in H. apply in_app_or in H as [H|H]; [now apply Ha|now apply Hb]. Qed.

Ltac prod :=
  cbn [production]; unfold form, block_forms, block_header, import_export, id_opt, Opt, Plus,
    SpecSyntax.instr, lp, rp; cbn [app seq one_of].

Ltac good :=
  lazymatch goal with
  | H : Good ?g |- Good ?g => exact H
  | |- Good (GNode _ _) => apply good_node; [prod; inc|good]
  | |- Good (GSeq ?a ?b) => apply (good_two _ a b); [reflexivity|good|good]
  | |- Good (GAlt ?a ?b) => apply (good_two _ a b); [reflexivity|good|good]
  | |- Good (GTill ?a ?b) => apply (good_two _ a b); [reflexivity|good|good]
  | |- Good (GIf _ _ ?a ?b) => apply (good_two _ a b); [reflexivity|good|good]
  | |- Good (GOpt ?a) => change (Good a); good
  | |- Good (GRep ?a) => change (Good a); good
  | |- Good (GRep1 ?a) => change (Good a); good
  | |- Good (GCtx _ ?a) => change (Good a); good
  | |- Good (GRetry ?a _) => change (Good a); good
  | |- Good (GRetryOnce ?a _) => change (Good a); good
  | |- Good (GMust ?a) => change (Good a); good
  | |- Good (GTok _ _) => apply good_nil; reflexivity
  | |- Good (keyword _) => apply good_nil; reflexivity
  | |- Good GTriv => apply good_nil; reflexivity
  | |- Good GEmpty => apply good_nil; reflexivity
  | |- Good GFail => apply good_nil; reflexivity
  | |- Good GRParen => apply good_nil; reflexivity
  | |- Good GInstr => apply good_nil; reflexivity
  | |- Good ?g => unf g; good
  end.

Lemma good_val_type : Good val_type. Proof. good. Qed.
Lemma good_param : Good param. Proof. pose proof good_val_type. good. Qed.
Lemma good_result : Good result. Proof. pose proof good_val_type. good. Qed.
Lemma good_type_use : Good type_use. Proof. pose proof good_param. pose proof good_result. good. Qed.
Lemma good_block_type : Good block_type. Proof. pose proof good_type_use. pose proof good_result. good. Qed.
Lemma good_block kw k : (kw, k) = ("block"%string, BLOCK_BLOCK) \/ (kw, k) = ("loop"%string, BLOCK_LOOP) -> Good (block_like kw k).
Proof.
  pose proof good_block_type. intros [E|E]; injection E as -> ->; good.
Qed.
Lemma good_block_if : Good block_if. Proof. pose proof good_block_type. good. Qed.
Lemma good_operand b : Good (operand b). Proof. pose proof good_type_use. destruct b; good. Qed.
Lemma good_plain : Good plain_instr.
Proof. pose proof (good_operand true). pose proof (good_operand false). good. Qed.
Lemma good_instr : Good instr_body.
Proof.
  pose proof good_plain. pose proof good_block_if.
  pose proof (good_block _ _ (or_introl eq_refl)). pose proof (good_block _ _ (or_intror eq_refl)). good.
Qed.

Lemma good_module : Good module.
Proof.
  pose proof good_type_use. pose proof good_param. pose proof good_result. pose proof good_val_type. good.
Qed.

(** ** C42 *)

(** In a document reported free of syntax errors every node but the root
    follows the production of its kind. *)
Theorem C42_nodes dbg src tree k cs :
  parse dbg src = Parsed tree [] -> Sub tree (Node k cs) -> k <> ROOT ->
  Matches (production k) (filter significant cs).
Proof.
  intros H Hs Hk. destruct (parse_rules_strict _ _ _ _ _ H Hs) as [[E _]|(a & Ha & HL)];
    [contradiction|].
  unfold all_rules in Ha. apply in_app_or in Ha as [Ha|Ha].
  - exact (good_module _ _ Ha _ HL).
  - exact (good_instr _ _ Ha _ HL).
Qed.
Print Assumptions C42_nodes.

(** If moreover the tree has no ERROR token (C06 says when that can happen),
    the whole document follows the productions. *)
Theorem C42_document dbg src tree :
  parse dbg src = Parsed tree [] -> (forall t, ~ In (ERROR, t) (gtokens tree)) -> Conforms tree.
Proof.
  intros H He k cs Hs. destruct (parse_rules_strict _ _ _ _ _ H Hs) as [[-> E]|(a & Ha & HL)].
  - destruct (parse_lang _ _ _ _ H) as (o1 & o2 & Et & _ & HL & Hf). specialize (HL eq_refl).
    rewrite Et in E. injection E as <-.
    rewrite filter_app. replace (filter significant o2) with (@nil green).
    + rewrite app_nil_r. cbn [production]. revert HL. generalize o1.
      change (Inc (GRep (GRetryOnce module [])) (Star (Nd MODULE))). inc.
    + symmetry. apply sig_trivia. rewrite Forall_forall in Hf |- *. intros x Hx.
      destruct (Hf x Hx) as [Ht|Ht]; [exact Ht|]. exfalso.
      destruct x as [kx t|]; [|destruct Ht]. destruct Ht as [-> _].
      apply (He t). rewrite Et. cbn [gtokens]. rewrite map_app, concat_app.
      apply in_or_app. right. apply in_concat. exists [(ERROR, t)]. split; [|now left].
      apply in_map_iff. exists (Tok ERROR t). auto.
  - unfold all_rules in Ha. apply in_app_or in Ha as [Ha|Ha].
    + exact (good_module _ _ Ha _ HL).
    + exact (good_instr _ _ Ha _ HL).
Qed.
Print Assumptions C42_document.

(** *** A decision procedure for [Conforms], for the examples *)

Fixpoint nullable (r : rx) : bool :=
  match r with
  | Kw _ | Tk _ | Nd _ => false
  | Eps | Star _ => true
  | Sq a b => nullable a && nullable b
  | Or a b => nullable a || nullable b
  end.
(** [None] matches nothing. *)
Definition osq (a : option rx) (b : rx) : option rx := option_map (fun x => Sq x b) a.
Definition oor (a b : option rx) : option rx :=
  match a, b with Some x, Some y => Some (Or x y) | Some x, None | None, Some x => Some x | None, None => None end.
Fixpoint deriv (r : rx) (g : green) : option rx :=
  match r with
  | Kw s => match g with Tok KEYWORD t => if text_eqb t (Text.T s) then Some Eps else None | _ => None end
  | Tk k => match g with Tok k' _ => if kind_eqb k k' then Some Eps else None | _ => None end
  | Nd k => match g with Node k' _ => if kind_eqb k k' then Some Eps else None | _ => None end
  | Eps => None
  | Sq a b => oor (osq (deriv a g) b) (if nullable a then deriv b g else None)
  | Or a b => oor (deriv a g) (deriv b g)
  | Star a => osq (deriv a g) (Star a)
  end.
Fixpoint matchb (r : rx) (l : list green) : bool :=
  match l with
  | [] => nullable r
  | g :: l' => match deriv r g with Some r' => matchb r' l' | None => false end
  end.
Fixpoint conformsb (g : green) : bool :=
  match g with
  | Tok _ _ => true
  | Node k cs => matchb (production k) (filter significant cs) && forallb conformsb cs
  end.

Lemma nullable_ok r : nullable r = true -> Matches r [].
Proof.
  induction r; cbn [nullable]; intros H; try discriminate.
  - constructor.
  - apply andb_prop in H as [H1 H2]. change (@nil green) with (@nil green ++ []). constructor; auto.
  - apply orb_prop in H as [H|H]; [apply M_OrL|apply M_OrR]; auto.
  - constructor.
Qed.
Lemma deriv_ok r g r' l : deriv r g = Some r' -> Matches r' l -> Matches r (g :: l).
Proof.
  revert r' l.
  induction r as [s|k|k| |a IHa b IHb|a IHa b IHb|a IHa]; cbn [deriv]; intros r' l H M.
  - destruct g as [k t|]; [|discriminate]. destruct k; try discriminate.
    destruct (text_eqb t (Text.T s)) eqn:E; [|discriminate]. injection H as <-. inv M.
    apply text_eqb_eq in E as ->. constructor.
  - destruct g as [k' t|]; [|discriminate]. destruct (kind_eqb k k') eqn:E; [|discriminate].
    injection H as <-. inv M. apply kind_eqb_eq in E as <-. constructor.
  - destruct g as [|k' cs]; [discriminate|]. destruct (kind_eqb k k') eqn:E; [|discriminate].
    injection H as <-. inv M. apply kind_eqb_eq in E as <-. constructor.
  - discriminate.
  - assert (HA : forall x, osq (deriv a g) b = Some x -> Matches x l -> Matches (Sq a b) (g :: l)).
    { intros x Ex Mx. destruct (deriv a g) as [x'|]; [|discriminate]. injection Ex as <-.
      apply sq_inv in Mx as (l1 & l2 & -> & M1 & M2). change (g :: l1 ++ l2) with ((g :: l1) ++ l2).
      constructor; [exact (IHa _ _ eq_refl M1)|exact M2]. }
    assert (HB : forall x, (if nullable a then deriv b g else None) = Some x -> Matches x l -> Matches (Sq a b) (g :: l)).
    { intros x Ex Mx. destruct (nullable a) eqn:En; [|discriminate].
      change (g :: l) with ([] ++ (g :: l)). constructor; [now apply nullable_ok|].
      exact (IHb _ _ Ex Mx). }
    unfold oor in H. destruct (osq (deriv a g) b) as [x|] eqn:Ex;
      destruct (if nullable a then deriv b g else None) as [y|] eqn:Ey; try discriminate;
      injection H as <-; [inv M|..]; eauto.
  - unfold oor in H. destruct (deriv a g) as [x|] eqn:Ex; destruct (deriv b g) as [y|] eqn:Ey;
      try discriminate; injection H as <-; [inv M|..];
      solve [apply M_OrL; eauto | apply M_OrR; eauto].
  - destruct (deriv a g) as [x|] eqn:Ex; [|discriminate]. injection H as <-.
    apply sq_inv in M as (l1 & l2 & -> & M1 & M2). change (g :: l1 ++ l2) with ((g :: l1) ++ l2).
    constructor; [exact (IHa _ _ eq_refl M1)|exact M2].
Qed.
Lemma matchb_ok l : forall r, matchb r l = true -> Matches r l.
Proof.
  induction l as [|g l IH]; cbn [matchb]; intros r H; [now apply nullable_ok|].
  destruct (deriv r g) as [r'|] eqn:E; [|discriminate]. eapply deriv_ok; eauto.
Qed.
Lemma nullable_complete r : Matches r [] -> nullable r = true.
Proof.
  enough (forall l, Matches r l -> l = [] -> nullable r = true) by eauto.
  induction 1; cbn [nullable]; intros E; try discriminate; try reflexivity.
  - apply app_eq_nil in E as [-> ->]. now rewrite IHMatches1, IHMatches2.
  - now rewrite IHMatches.
  - rewrite IHMatches by exact E. apply orb_true_r.
Qed.
Lemma deriv_complete r o : Matches r o -> forall g l, o = g :: l ->
  exists r', deriv r g = Some r' /\ Matches r' l.
Proof.
  induction 1 as [s|k t|k cs| |a b x y Ha IHa Hb IHb|a b x Ha IHa|a b x Hb IHb|a|a x y Ha IHa Hb IHb];
    intros g l E; cbn [deriv].
  - injection E as <- <-. rewrite text_eqb_refl. exists Eps. split; [reflexivity|constructor].
  - injection E as <- <-. rewrite kind_eqb_refl. exists Eps. split; [reflexivity|constructor].
  - injection E as <- <-. rewrite kind_eqb_refl. exists Eps. split; [reflexivity|constructor].
  - discriminate.
  - destruct x as [|g' x].
    + rewrite (nullable_complete _ Ha). destruct (IHb _ _ E) as (r' & -> & M).
      destruct (deriv a g); cbn [osq option_map oor]; eexists; (split; [reflexivity|]); auto using M_OrR.
    + cbn [app] in E. injection E as -> <-. destruct (IHa _ _ eq_refl) as (r' & -> & M).
      cbn [osq option_map]. destruct (if nullable a then deriv b g else None); cbn [oor];
        eexists; (split; [reflexivity|]); [apply M_OrL|]; now constructor.
  - destruct (IHa _ _ E) as (r' & -> & M).
    destruct (deriv b g); cbn [oor]; eexists; (split; [reflexivity|]); [apply M_OrL|]; assumption.
  - destruct (IHb _ _ E) as (r' & -> & M).
    destruct (deriv a g); cbn [oor]; eexists; (split; [reflexivity|]); [apply M_OrR|]; assumption.
  - discriminate.
  - destruct x as [|g' x].
    + destruct (IHb _ _ E) as (r' & Hr & M). cbn [deriv] in Hr. exists r'. auto.
    + cbn [app] in E. injection E as -> <-. destruct (IHa _ _ eq_refl) as (r' & -> & M).
      cbn [osq option_map]. eexists; (split; [reflexivity|]). now constructor.
Qed.
Lemma matchb_complete l : forall r, Matches r l -> matchb r l = true.
Proof.
  induction l as [|g l IH]; cbn [matchb]; intros r H; [now apply nullable_complete|].
  destruct (deriv_complete _ _ H _ _ eq_refl) as (r' & -> & M). now apply IH.
Qed.
Lemma conformsb_ok g : conformsb g = true -> Conforms g.
Proof.
  induction g as [k t|k cs IH] using green_ind'; cbn [conformsb]; intros H k' cs' Hs.
  - inv Hs.
  - apply andb_prop in H as [H1 H2]. inv Hs; [now apply matchb_ok|].
    rewrite Forall_forall in IH. rewrite forallb_forall in H2. eapply IH; eauto.
Qed.

(** Documents that satisfy the hypotheses; also a check that the productions
    are not so wide as to accept anything. *)
Definition syntax_src : text := Text.T "(module $m
  (import ""a"" ""b"" (func $i (type 0) (param i32) (result i32)))
  (type (func (param i32) (result i32)))
  (table 1 funcref) (memory 1 2) (global $g (mut i32) (i32.const 0))
  (elem (i32.const 0) func $f) (data (i32.const 0) ""x"" ""y"")
  (func $f (export ""f"") (type 0) (param $x i32) (result i32) (local $l f32)
    (if (result i32) (local.get $x) (then (i32.const 1)) (else (i32.const 2)))
    block $b br $b end $b)
  (start $f) (export ""g"" (global $g)))".
Definition no_error_tok (g : green) : bool :=
  negb (existsb (fun p => kind_eqb (fst p) ERROR) (gtokens g)).
Example C42_case :
  exists tree, parse false syntax_src = Parsed tree [] /\ (forall t, ~ In (ERROR, t) (gtokens tree))
    /\ conformsb tree = true.
Proof.
  assert (H : match parse false syntax_src with
              | Parsed tree [] => no_error_tok tree && conformsb tree
              | _ => false
              end = true) by (vm_compute; reflexivity).
  destruct (parse false syntax_src) as [tree [|]| |]; try discriminate.
  apply andb_prop in H as [H1 H2]. exists tree. split; [reflexivity|]. split; [|exact H2].
  intros t Hin. unfold no_error_tok in H1. apply negb_true_iff in H1.
  enough (existsb (fun p => kind_eqb (fst p) ERROR) (gtokens tree) = true) by congruence.
  apply existsb_exists. exists (ERROR, t). split; [exact Hin|reflexivity].
Qed.
(** The productions are not so wide as to accept anything: the order matters. *)
Example C42_order_matters :
  ~ Matches (production TYPE_USE)
      [Tok L_PAREN (Text.T "("); Tok KEYWORD (Text.T "type"); Node INDEX []; Tok R_PAREN (Text.T ")");
       Node RESULT []; Node PARAM []].
Proof. intros H. apply matchb_complete in H. vm_compute in H. discriminate. Qed.

(** The converse is false: there are documents that follow the productions,
    and are valid WebAssembly, for which syntax errors are reported.  The
    parser takes the first [(result)] for the whole type of the block. *)
Definition rejected_tree : green := (
  let t k (s : string) := Tok k (Text.T s) in
  let sp := t WHITESPACE " " in
  let lp := t L_PAREN "(" in let rp := t R_PAREN ")" in
  let res ty := Node RESULT [lp; t KEYWORD "result"; sp; Node VAL_TYPE [t NUM_TYPE ty]; rp] in
  Node ROOT [Node MODULE [lp; t KEYWORD "module"; sp; Node MODULE_FIELD_FUNC [lp; t KEYWORD "func"; sp;
    Node BLOCK_BLOCK [lp; t KEYWORD "block"; sp; Node BLOCK_TYPE [Node TYPE_USE [res "i32"; sp; res "i64"]];
      sp; Node PLAIN_INSTR [lp; t INSTR_NAME "unreachable"; rp]; rp]; rp]; rp]])%string.
Theorem C42_complete_refuted :
  exists tree, Conforms tree /\ forall tree', parse false (gtext tree) <> Parsed tree' [].
Proof.
  exists rejected_tree. split; [apply conformsb_ok; vm_compute; reflexivity|].
  assert (A : match parse false (gtext rejected_tree) with Parsed _ [] => false | _ => true end = true)
    by (vm_compute; reflexivity).
  intros tree' H. rewrite H in A. discriminate A.
Qed.
Print Assumptions C42_complete_refuted.
