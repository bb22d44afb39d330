(** Which checker a diagnostic comes from can be told from its message. *)

From Coq Require Import String List NArith Bool Arith Lia DecimalString.
From Verif Require Import Text Kind Green SpecParser Lexer LexerFacts Winnow Grammar Sem Lossless Total
  Bounds Lang TokForm Shape ThmParser Red Unique LineIndex Cursor Doc Ast Binder Preorder SpecBinder BinderFacts BinderDefs Blocks
  Nav NavSpec NavFacts ThmNav RefFacts SymCases TokKinds InstrMeta Types Check CheckFacts.
Import ListNotations.

(** The kinds of diagnostics, by message. *)
Inductive dclass : Type := CSyntax | CModules | CLiteral | CType | CUndef | CDup.
Definition literal_msgs : list text :=
  map T ["expected identifier or unsigned integer"; "expected integer"; "expected floating-point number";
         "expected memory argument"]%string.
Definition classify (m : text) : dclass :=
  match m with
  | 115%N :: _ => CSyntax      (* "syntax error: ..." *)
  | 111%N :: _ => CModules     (* "only one module is allowed in one file" *)
  | 99%N :: _ => CUndef        (* "cannot find `..` in this scope" *)
  | 100%N :: _ => CDup         (* "duplicated name `..` in this scope" *)
  | _ => if existsb (text_eqb m) literal_msgs then CLiteral else CType
  end.

Lemma show_N_digit n : exists c r, show_N n = c :: r /\ (48 <= c <= 57)%N.
Proof.
  unfold show_N, NilZero.string_of_uint. destruct (N.to_uint n); cbn; do 2 eexists; (split; [reflexivity|lia]).
Qed.

Lemma class_diag_at src e m d : diag_at src e m = Ans d -> d_message d = m.
Proof. unfold diag_at. destruct range_of; cbn; try discriminate. intros H. now injection H as <-. Qed.
Lemma class_syntax src e d : syntax_diag src e = Ans d -> classify (d_message d) = CSyntax.
Proof.
  unfold syntax_diag. destruct (line_col _ (e_start e)) as [a|]; cbn [amust abind]; [|discriminate].
  destruct (line_col _ (e_end e)) as [b|]; cbn [amust abind]; [|discriminate]. intros H. injection H as <-. reflexivity.
Qed.
Lemma class_multi src e d : among d (multi_modules src e) -> classify (d_message d) = CModules.
Proof.
  intros (l & H & Hd). unfold multi_modules in H. apply (map_ans_in _ _ _ _ H) in Hd as (m & _ & E).
  apply class_diag_at in E. rewrite E. reflexivity.
Qed.
Lemma class_undef src s d : undef_diag src s = Ans d -> classify (d_message d) = CUndef.
Proof.
  unfold undef_diag. destruct key_range as [r| |]; cbn [abind]; try discriminate. intros H. injection H as <-. reflexivity.
Qed.
Lemma among_concat {A B} (f : A -> ans (list B)) l d :
  among d (abind (map_ans f l) (fun ls => Ans (concat ls))) -> exists x, In x l /\ among d (f x).
Proof.
  intros (y & E & Hd). destruct (map_ans f l) as [ls| |] eqn:El; cbn in E; try discriminate. injection E as <-.
  now apply (concat_among _ _ _ _ El) in Hd.
Qed.
Lemma among_app {B} (a b : ans (list B)) d :
  among d (abind a (fun x => abind b (fun y => Ans (x ++ y)))) -> among d a \/ among d b.
Proof.
  intros (l & E & Hd). destruct a as [x| |]; try discriminate. destruct b as [y| |]; try discriminate.
  cbn in E. injection E as <-. apply in_app_or in Hd as [Hd|Hd]; [left; exists x|right; exists y]; auto.
Qed.
Lemma class_dup src tb d : among d (dup_names src tb) -> classify (d_message d) = CDup.
Proof.
  intros H. apply among_app in H as [H|H].
  - apply among_concat in H as (g & _ & l & H & Hd). unfold group_diags in H.
    apply (map_ans_in _ _ _ _ H) in Hd as (s & _ & E). clear H; unfold group_diag in E.
    destruct (ident_lsp_range src s); cbn [abind] in E; try discriminate. destruct (map_ans (ident_lsp_range src) _); cbn [abind] in E; try discriminate.
    injection E as <-. reflexivity.
  - apply among_concat in H as (s & _ & l & H & Hd). unfold nested_diag in H. destruct (s_kind s); try (injection H as <-; destruct Hd; fail).
    destruct (i_name (s_idx s)); [|injection H as <-; destruct Hd].
    destruct nested_ranges; cbn [abind] in H; try discriminate. destruct Nat.ltb; [|injection H as <-; destruct Hd].
    destruct ident_lsp_range; cbn [abind] in H; try discriminate. destruct map_ans; cbn [abind] in H; try discriminate.
    injection H as <-. destruct Hd as [<-|[]]. reflexivity.
Qed.
Lemma forms_msgs nm f : In f (operand_forms nm) -> In (T (snd f)) literal_msgs.
Proof.
  unfold operand_forms. repeat destruct (name_in _ _); cbn [In]; intros H;
    repeat (destruct H as [<-|H]; [cbn; tauto|]); destruct H.
Qed.
Lemma literal_class m : In m literal_msgs -> classify m = CLiteral.
Proof. intros H. cbn [literal_msgs map In] in H. repeat (destruct H as [<-|H]; [vm_compute; reflexivity|]). destruct H. Qed.
Lemma class_literal src e d : among d (literal_operands src e) -> classify (d_message d) = CLiteral.
Proof.
  intros H. unfold literal_operands in H. destruct instr_name_of as [nm|]; [|destruct H as (l & H & Hd); injection H as <-; destruct Hd].
  apply among_concat in H as ((f & o) & Hin & l & H & Hd). apply in_combine_l in Hin. apply forms_msgs in Hin.
  unfold check_operand in H. cbn [fst snd] in H. destruct (first_token o) as [t|]; [|injection H as <-; destruct Hd].
  destruct existsb; [injection H as <-; destruct Hd|]. destruct (diag_at src t _) as [d'| |] eqn:E; cbn [abind] in H; try discriminate.
  injection H as <-. destruct Hd as [<-|[]]. apply class_diag_at in E. rewrite E. now apply literal_class.
Qed.

Inductive TypeMsg : text -> Prop :=
| TM_count a b : TypeMsg (count_msg a b)
| TM_mismatch a b : TypeMsg (mismatch_msg a b)
| TM_instr : TypeMsg (T "expected instr").
Lemma classify_e r : classify (101%N :: r) = if existsb (text_eqb (101%N :: r)) literal_msgs then CLiteral else CType.
Proof. reflexivity. Qed.
Lemma type_class m : TypeMsg m -> classify m = CType.
Proof.
  intros H. destruct H as [a b|a b|].
  - unfold count_msg, show_nat. destruct (show_N_digit (N.of_nat a)) as (c & r & -> & Hc).
    match goal with |- classify (T "expected " ++ ?x) = _ => set (y := x); assert (Hy : exists z, y = c :: z) by (unfold y; cbn [app]; eauto) end.
    clearbody y. destruct Hy as (z & ->).
    change (T "expected " ++ c :: z) with (101%N :: (T "xpected " ++ c :: z)). rewrite classify_e.
    assert (H : existsb (text_eqb (101%N :: (T "xpected " ++ c :: z))) literal_msgs = false); [|now rewrite H].
    apply not_true_iff_false. intros H. apply existsb_exists in H as (m & Hm & E). apply text_eqb_eq in E. subst m.
    cbn [literal_msgs map In] in Hm.
    repeat (destruct Hm as [Hm|Hm]; [cbn in Hm; injection Hm as E1 _; lia|]). destruct Hm.
  - destruct a, b; vm_compute; reflexivity.
  - vm_compute. reflexivity.
Qed.
Lemma mismatches_msg src ps rs d : among d (type_mismatches src ps rs) -> TypeMsg (d_message d).
Proof.
  intros H. apply among_concat in H as (((t & k) & (t' & x)) & _ & l & H & Hd). unfold type_mismatch in H.
  destruct t as [v|]; [|injection H as <-; destruct Hd]. destruct t' as [v'|]; [|injection H as <-; destruct Hd].
  destruct valtype_eqb; [injection H as <-; destruct Hd|]. destruct range_of; cbn [abind] in H; try discriminate.
  destruct k as [k|]; [destruct key_range; cbn [abind] in H; try discriminate|cbn [abind] in H]; injection H as <-;
    destruct Hd as [<-|[]]; constructor.
Qed.
Lemma one_diag src e m d l : abind (diag_at src e m) (fun d => Ans [d]) = Ans l -> In d l -> d_message d = m.
Proof.
  destruct (diag_at src e m) as [d'| |] eqn:E; cbn [abind]; try discriminate. intros H. injection H as <-.
  intros [<-|[]]. eapply class_diag_at; eauto.
Qed.
Lemma folded_msg src tb e d : among d (check_folded src tb e) -> TypeMsg (d_message d).
Proof.
  intros (l & H & Hd). unfold check_folded in H. destruct instr_name_of as [nm|]; [|injection H as <-; destruct Hd].
  destruct (token e L_PAREN); [|injection H as <-; destruct Hd].
  destruct (map_ans _ _) as [rc| |] eqn:Erc; cbn [abind] in H; try discriminate.
  assert (Hrc : forall d, In d (concat (map snd rc)) -> TypeMsg (d_message d)).
  { clear - Erc. intros d Hd. apply in_concat in Hd as (y & Hy & Hd). apply in_map_iff in Hy as (p & <- & Hp).
    apply (map_ans_in _ _ _ _ Erc) in Hp as (o & _ & Ho). unfold receive in Ho. destruct operand_instr.
    - destruct catch; cbn [abind] in Ho; try discriminate. injection Ho as <-. destruct Hd.
    - destruct (match meta_of nm with Some _ => true | None => false end); [|injection Ho as <-; destruct Hd].
      destruct (diag_at src o (T "expected instr")) as [d'| |] eqn:E; cbn [abind] in Ho; try discriminate.
      injection Ho as <-. destruct Hd as [<-|[]]. apply class_diag_at in E. rewrite E. constructor. }
  destruct catch as [[ps|]| |]; cbn [abind] in H; try discriminate; [|injection H as <-; auto].
  match type of H with abind ?x _ = _ => destruct x as [d2| |] eqn:E2; cbn [abind] in H; try discriminate end.
  destruct type_mismatches as [d3| |] eqn:E3; cbn [abind] in H; try discriminate. injection H as <-.
  apply in_app_or in Hd as [Hd|Hd]; [auto|]. apply in_app_or in Hd as [Hd|Hd].
  - destruct Nat.eqb; [injection E2 as <-; destruct Hd|]. rewrite (one_diag _ _ _ _ _ E2 Hd). constructor.
  - eapply mismatches_msg. exists d3. split; [exact E3|exact Hd].
Qed.
Lemma step_msg src tb st e st' ds d : stack_step src tb st e = Ans (st', ds) -> In d ds -> TypeMsg (d_message d).
Proof.
  intros H Hd. unfold stack_step in H. destruct kind_eqb; [|injection H as <- <-; destruct Hd].
  destruct (catch (resolve_expected_types src tb e)) as [[ps|]| |]; cbn [abind] in H; try discriminate; [|injection H as <- <-; destruct Hd].
  match type of H with abind ?x _ = _ => destruct x as [d2| |] eqn:E2; cbn [abind] in H; try discriminate end.
  destruct type_mismatches as [d3| |] eqn:E3; cbn [abind] in H; try discriminate.
  destruct (catch (resolve_type src tb e)) as [r| |]; cbn [abind] in H; try discriminate. injection H as <- <-.
  apply in_app_or in Hd as [Hd|Hd].
  - destruct Nat.leb; [injection E2 as <-; destruct Hd|]. rewrite (one_diag _ _ _ _ _ E2 Hd). constructor.
  - eapply mismatches_msg. exists d3. split; [exact E3|exact Hd].
Qed.
Lemma stacked_msg src tb e d : among d (check_stacked src tb e) -> TypeMsg (d_message d).
Proof.
  intros (l & H & Hd). unfold check_stacked in H. destruct forallb; [injection H as <-; destruct Hd|].
  revert l H Hd. generalize (@nil (optype * elem)). induction (filter is_instr (children e)) as [|x r IH]; intros st l H Hd; cbn [stack_loop] in H.
  - injection H as <-. destruct Hd.
  - destruct (stack_step src tb st x) as [[st' ds]| |] eqn:Es; cbn [abind fst snd] in H; try discriminate.
    destruct (stack_loop src tb st' r) as [l'| |] eqn:El; cbn [abind] in H; try discriminate. injection H as <-.
    apply in_app_or in Hd as [Hd|Hd]; [eapply step_msg; eauto|eapply IH; eauto].
Qed.

(** Diagnostics of each class, and their source. *)
Lemma among_app_iff {B} (a b : ans (list B)) d : (exists x, a = Ans x) -> (exists y, b = Ans y) ->
  (among d (abind a (fun x => abind b (fun y => Ans (x ++ y)))) <-> among d a \/ among d b).
Proof.
  intros (x & ->) (y & ->). cbn [abind]. unfold among. split.
  - intros (l & E & Hd). injection E as <-. apply in_app_or in Hd as [Hd|Hd]; eauto.
  - intros [(l & E & Hd)|(l & E & Hd)]; injection E as <-; (eexists; split; [reflexivity|]); apply in_or_app; auto.
Qed.

Section Doc.
  Variable src : text.
  Notation tree := (tree_of src).
  Notation nodes := (nodes src).
  Notation tb := (the_table src).
  Lemma node_class n d : among d (check_node src tb n) ->
    (ekind n = ROOT /\ among d (multi_modules src n) /\ classify (d_message d) = CModules)
    \/ (ekind n = PLAIN_INSTR /\ among d (literal_operands src n) /\ classify (d_message d) = CLiteral)
    \/ (ekind n = PLAIN_INSTR /\ among d (check_folded src tb n) /\ classify (d_message d) = CType)
    \/ ((ekind n = MODULE_FIELD_FUNC \/ ekind n = MODULE_FIELD_GLOBAL) /\ among d (check_stacked src tb n)
        /\ classify (d_message d) = CType).
  Proof.
    intros H. unfold check_node in H. destruct (ekind n) eqn:K; try (destruct H as (l & H & Hd); injection H as <-; destruct Hd; fail).
    all: first
      [ left; split; [reflexivity|]; split; [exact H|]; eapply class_multi; exact H
      | right; right; right; split; [tauto|]; split; [exact H|]; apply type_class; eapply stacked_msg; exact H
      | apply among_app in H as [H|H];
        [ right; left; split; [reflexivity|]; split; [exact H|]; eapply class_literal; exact H
        | right; right; left; split; [reflexivity|]; split; [exact H|]; apply type_class; eapply folded_msg; exact H ] ].
  Qed.
  Lemma check_undef ds d : check src = Ans ds ->
    (In d ds /\ classify (d_message d) = CUndef <->
     exists s, In s (raw_symbols nodes) /\ is_undefined tb s = true /\ undef_diag src s = Ans d).
  Proof.
    intros H. rewrite (check_in src ds d H). split.
    - intros [[(e & _ & E)|[(n & _ & _ & E)|[E|E]]] C]; [|apply node_class in E|exact E|].
      + apply class_syntax in E. congruence.
      + exfalso. intuition congruence.
      + apply class_dup in E. congruence.
    - intros (s & A & B & E). split; [|eapply class_undef; eauto]. right. right. left. eauto.
  Qed.
  Lemma check_dup ds d : check src = Ans ds ->
    (In d ds /\ classify (d_message d) = CDup <-> among d (dup_names src tb)).
  Proof.
    intros H. rewrite (check_in src ds d H). split.
    - intros [[(e & _ & E)|[(n & _ & _ & E)|[(s & _ & _ & E)|E]]] C]; [| apply node_class in E| |exact E].
      + apply class_syntax in E. congruence.
      + exfalso. intuition congruence.
      + apply class_undef in E. congruence.
    - intros E. split; [|eapply class_dup; eauto]. tauto.
  Qed.
  Lemma check_syntax ds d : check src = Ans ds ->
    (In d ds /\ classify (d_message d) = CSyntax <-> exists e, In e (errs_of src) /\ syntax_diag src e = Ans d).
  Proof.
    intros H. rewrite (check_in src ds d H). split.
    - intros [[E|[(n & _ & _ & E)|[(s & _ & _ & E)|E]]] C]; [exact E| apply node_class in E| |].
      + exfalso. intuition congruence.
      + apply class_undef in E. congruence.
      + apply class_dup in E. congruence.
    - intros (e & A & E). split; [|eapply class_syntax; eauto]. left. eauto.
  Qed.
  Lemma check_modules ds d : check src = Ans ds ->
    (In d ds /\ classify (d_message d) = CModules <-> among d (multi_modules src (root_of tree))).
  Proof.
    intros H. rewrite (check_in src ds d H). split.
    - intros [[(e & _ & E)|[(n & T & N & E)|[(s & _ & _ & E)|E]]] C].
      + apply class_syntax in E. congruence.
      + apply node_class in E as [(K & E & _)|E]; [|exfalso; intuition congruence].
        apply (root_kind_only src n T N) in K. now subst n.
      + apply class_undef in E. congruence.
      + apply class_dup in E. congruence.
    - intros E. split; [|eapply class_multi; eauto]. right. left. exists (root_of tree). split; [constructor|].
      assert (K : ekind (root_of tree) = ROOT) by apply root_kind. split.
      + unfold is_node, ekind, root_of in *. cbn [el] in *. destruct (tree) as [k t|]; [|reflexivity].
        cbn in K. subst k. exfalso. pose proof (parse_of src) as P. apply parse_lang in P as (o1 & o2 & E' & _).
        destruct E as (l & El & Hd). unfold multi_modules, childs, children, children_with_tokens in El. cbn in El.
        injection El as <-. destruct Hd.
      + unfold check_node. rewrite K. exact E.
  Qed.
  Lemma check_literal ds d : check src = Ans ds ->
    (In d ds /\ classify (d_message d) = CLiteral <->
     exists n, InTree tree n /\ is_node n = true /\ ekind n = PLAIN_INSTR /\ among d (literal_operands src n)).
  Proof.
    intros H. rewrite (check_in src ds d H). split.
    - intros [[(e & _ & E)|[(n & T & N & E)|[(s & _ & _ & E)|E]]] C].
      + apply class_syntax in E. congruence.
      + exists n. split; [exact T|]. split; [exact N|]. apply node_class in E as [(_ & _ & X)|[(K & E & _)|[(_ & _ & X)|(_ & _ & X)]]]; try congruence.
        auto.
      + apply class_undef in E. congruence.
      + apply class_dup in E. congruence.
    - intros (n & T & N & K & E). split; [|eapply class_literal; eauto]. right. left. exists n. split; [exact T|]. split; [exact N|].
      unfold check_node. rewrite K. apply among_app_iff; [| |now left].
      + destruct (literal_fine src n T) as (x & Ex & _). eauto.
      + destruct (folded_fine src n T) as (x & Ex & _). eauto.
  Qed.
  Lemma check_types ds d : check src = Ans ds ->
    (In d ds /\ classify (d_message d) = CType <->
     exists n, InTree tree n /\ is_node n = true /\
       (ekind n = PLAIN_INSTR /\ among d (check_folded src tb n)
        \/ (ekind n = MODULE_FIELD_FUNC \/ ekind n = MODULE_FIELD_GLOBAL) /\ among d (check_stacked src tb n))).
  Proof.
    intros H. rewrite (check_in src ds d H). split.
    - intros [[(e & _ & E)|[(n & T & N & E)|[(s & _ & _ & E)|E]]] C].
      + apply class_syntax in E. congruence.
      + exists n. split; [exact T|]. split; [exact N|]. apply node_class in E as [(_ & _ & X)|[(_ & _ & X)|[(K & E & _)|(K & E & _)]]]; try congruence;
        auto.
      + apply class_undef in E. congruence.
      + apply class_dup in E. congruence.
    - intros (n & T & N & [[K E]|[K E]]).
      + split; [|apply type_class; eapply folded_msg; eauto]. right. left. exists n. split; [exact T|]. split; [exact N|].
        unfold check_node. rewrite K. apply among_app_iff; [| |now right].
        * destruct (literal_fine src n T) as (x & Ex & _). eauto.
        * destruct (folded_fine src n T) as (x & Ex & _). eauto.
      + split; [|apply type_class; eapply stacked_msg; eauto]. right. left. exists n. split; [exact T|]. split; [exact N|].
        unfold check_node. destruct K as [K|K]; rewrite K; exact E.
  Qed.
End Doc.
