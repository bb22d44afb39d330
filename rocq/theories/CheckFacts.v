(** Facts about the checkers: they always answer, and where their diagnostics
    come from. *)

From Coq Require Import String List NArith Bool Arith Lia DecimalString.
From Verif Require Import Text Kind Green SpecParser Lexer LexerFacts Winnow Grammar Sem Lossless Total
  Bounds Lang TokForm Shape ThmParser Red Unique LineIndex Cursor Doc Ast Binder Preorder SpecBinder BinderFacts BinderDefs Blocks
  Nav NavSpec NavFacts ThmNav RefFacts SymCases TokKinds InstrMeta Types Check.
Import ListNotations.

(** ** Lists of answers *)

Lemma map_ans_ok {A B} (f : A -> ans B) (R : A -> B -> Prop) l :
  (forall x, In x l -> exists y, f x = Ans y /\ R x y) -> exists ys, map_ans f l = Ans ys /\ Forall2 R l ys.
Proof.
  induction l as [|x l IH]; intros H; cbn [map_ans]; [exists []; split; [reflexivity|constructor]|].
  destruct (H x (or_introl eq_refl)) as (y & -> & Hy). destruct IH as (ys & -> & Hys); [intros z Hz; apply H; now right|].
  cbn [abind]. exists (y :: ys). split; [reflexivity|now constructor].
Qed.
Lemma map_ans_total {A B} (f : A -> ans B) l :
  (forall x, In x l -> exists y, f x = Ans y) -> exists ys, map_ans f l = Ans ys.
Proof.
  intros H. destruct (map_ans_ok f (fun _ _ => True) l) as (ys & E & _); [|eauto].
  intros x Hx. destruct (H x Hx) as (y & E). eauto.
Qed.
Lemma map_ans_Forall2 {A B} (f : A -> ans B) l ys : map_ans f l = Ans ys <-> Forall2 (fun x y => f x = Ans y) l ys.
Proof.
  revert ys. induction l as [|x l IH]; intros ys; cbn [map_ans].
  - split; [intros H; injection H as <-; constructor|]. intros H. inversion H. reflexivity.
  - split.
    + destruct (f x) as [y| |] eqn:E; cbn [abind]; try discriminate.
      destruct (map_ans f l) as [zs| |]; cbn [abind]; try discriminate. intros H. injection H as <-.
      constructor; [exact E|]. now apply IH.
    + intros H. inversion H as [|? y ? zs H1 H2]; subst. rewrite H1. cbn [abind]. apply IH in H2. rewrite H2. reflexivity.
Qed.
Lemma map_ans_in {A B} (f : A -> ans B) l ys y : map_ans f l = Ans ys ->
  (In y ys <-> exists x, In x l /\ f x = Ans y).
Proof.
  intros H. apply map_ans_Forall2 in H. induction H as [|x z l zs H1 H2 IH]; cbn [In].
  - split; [intros []|intros (x & [] & _)].
  - rewrite IH. split.
    + intros [<-|(x' & Hx & E)]; [exists x; auto|exists x'; auto].
    + intros (x' & [<-|Hx] & E); [left; congruence|right; eauto].
Qed.

(** [d] is among the diagnostics [a]. *)
Definition among {B} (d : B) (a : ans (list B)) : Prop := exists l, a = Ans l /\ In d l.
Lemma concat_among {A B} (f : A -> ans (list B)) l ls d : map_ans f l = Ans ls ->
  (In d (concat ls) <-> exists x, In x l /\ among d (f x)).
Proof.
  intros H. rewrite in_concat. split.
  - intros (y & Hy & Hd). apply (map_ans_in _ _ _ _ H) in Hy as (x & Hx & E). exists x. split; [exact Hx|]. exists y. auto.
  - intros (x & Hx & y & E & Hd). exists y. split; [|exact Hd]. apply (map_ans_in _ _ _ _ H). eauto.
Qed.
Lemma concat_among_bind {A B} (f : A -> ans (list B)) l d :
  (forall x, In x l -> exists y, f x = Ans y) ->
  (among d (abind (map_ans f l) (fun ls => Ans (concat ls))) <-> exists x, In x l /\ among d (f x)).
Proof.
  intros H. destruct (map_ans_total f l H) as (ls & E). rewrite E. cbn [abind]. unfold among at 1. split.
  - intros (y & Ey & Hd). injection Ey as <-. now apply (concat_among f l ls).
  - intros Hd. exists (concat ls). split; [reflexivity|]. now apply (concat_among f l ls).
Qed.
Lemma concat_total {A B} (f : A -> ans (list B)) l :
  (forall x, In x l -> exists y, f x = Ans y) -> exists ls, abind (map_ans f l) (fun ls => Ans (concat ls)) = Ans ls.
Proof. intros H. destruct (map_ans_total f l H) as (ls & ->). cbn. eauto. Qed.
Lemma catch_total {A} (a : ans A) : a <> Panics -> exists o, catch a = Ans o.
Proof. destruct a; cbn; intros H; eauto. now destruct H. Qed.

(** ** Positions inside a document *)

(** [p] is the position of some place of the document. *)
Definition Located (src : text) (a b : nat) (r : range) : Prop :=
  a <= tlen src /\ b <= tlen src
  /\ line_col (new_line_index src) a = Some (fst r) /\ line_col (new_line_index src) b = Some (snd r).
Definition RangeIn (src : text) (r : range) : Prop := exists a b, a <= b /\ Located src a b r.
(** Only the range of a syntax error may be reversed. *)
Definition DiagIn (src : text) (d : diag) : Prop :=
  (RangeIn src (d_range d)
   \/ (exists m, d_message d = T "syntax error: " ++ m) /\ exists a b, Located src a b (d_range d))
  /\ forall l, d_related d = Some l -> forall r, In r l -> RangeIn src (fst r).

Lemma Forall2_in_r {A B} (P : B -> Prop) (l : list A) (l' : list B) y :
  Forall2 (fun _ y => P y) l l' -> In y l' -> P y.
Proof. induction 1; cbn; [intros []|]. intros [<-|H1]; auto. Qed.

Section Doc.
  Variable src : text.
  Notation tree := (tree_of src).
  Notation nodes := (nodes src).
  Notation tb := (the_table src).

  Lemma range_of_in e r : InTree tree e -> RangeOf src e r -> RangeIn src r.
  Proof.
    intros T [H1 H2]. destruct (in_tree_range src e T). exists (estart e), (eend e). split; [lia|]. split; [lia|]. auto.
  Qed.
  Lemma diag_at_ok e m : InTree tree e -> exists d, diag_at src e m = Ans d
    /\ RangeOf src e (d_range d) /\ d_message d = m /\ d_related d = None.
  Proof.
    intros T. unfold diag_at. destruct (range_of_ok src e T) as (r & -> & R). cbn [abind]. eexists. split; [reflexivity|].
    cbn. auto.
  Qed.
  Lemma diag_at_in e m d : InTree tree e -> diag_at src e m = Ans d -> DiagIn src d.
  Proof.
    intros T H. destruct (diag_at_ok e m T) as (d' & E & R & _ & N). rewrite E in H. injection H as <-.
    split; [left; now apply (range_of_in e)|]. rewrite N. discriminate.
  Qed.
  Lemma key_range_ok n : InTree tree n -> exists r, key_range src (key_of n) = Ans r /\ RangeOf src n r.
  Proof. intros T. destruct (range_of_ok src n T) as (r & E & R). exists r. split; [exact E|exact R]. Qed.

  (** ** Value types *)

  Definition part (e : elem) : Prop := Sub tree (el e).
  Lemma Sub_trans a b c : Sub a b -> Sub b c -> Sub a c.
  Proof. induction 1; [auto|]. intros H1. econstructor; eauto. Qed.
  Lemma part_child e c : part e -> In c (children_with_tokens e) -> part c.
  Proof.
    intros H Hc. apply child_in in Hc as (l & g & r & Heq & ->). unfold part in *. cbn [el] in *.
    eapply Sub_trans; [exact H|]. destruct (el e) as [k t|k cs]; [destruct l; discriminate|]. cbn in Heq. subst cs.
    econstructor; [apply in_elt|constructor].
  Qed.
  Lemma part_node e c : part e -> In c (children e) -> part c.
  Proof. intros H Hc. apply in_children in Hc as [Hc _]. eapply part_child; eauto. Qed.
  Lemma tree_part e : InTree tree e -> part e.
  Proof. intros T. exact (Desc_Sub _ _ T). Qed.

  (** A grammar that makes exactly one token. *)
  Fixpoint one_tok (g : grammar) : bool :=
    match g with
    | GTok _ _ => true
    | GAlt a b => one_tok a && one_tok b
    | GCtx _ a => one_tok a
    | GFail => true
    | _ => false
    end.
  Lemma Lang_one_tok ib st g o : Lang ib st g o -> one_tok g = true -> exists k t, o = [Tok k t] /\ In k (tkinds g).
  Proof.
    induction 1; cbn [one_tok tkinds]; try discriminate; intros E.
    - exists k, c. split; [reflexivity|now left].
    - apply andb_prop in E as [E1 E2]. destruct (IHLang E1) as (k & t & -> & Hk). exists k, t. split; [reflexivity|].
      apply in_or_app. now left.
    - apply andb_prop in E as [E1 E2]. destruct (IHLang E2) as (k & t & -> & Hk). exists k, t. split; [reflexivity|].
      apply in_or_app. now right.
    - auto.
  Qed.
  Lemma Sub_token g k t : Sub g (Tok k t) -> HasToken g k t.
  Proof.
    intros H. remember (Tok k t) as h eqn:E. induction H as [g|k' cs c g Hc Hs IH]; subst.
    - cbn. now left.
    - specialize (IH eq_refl). unfold HasToken in *. cbn [gtokens]. apply in_concat. exists (gtokens c). split; [now apply in_map|exact IH].
  Qed.
  Lemma val_type_node cs : Sub tree (Node VAL_TYPE cs) ->
    exists k t v, cs = [Tok k t] /\ t = show_valtype v
      /\ (k = NUM_TYPE /\ num_type t = Some v \/ k = VEC_TYPE /\ v = VV128 \/ k = REF_TYPE /\ ref_type t = Some v).
  Proof.
    intros Hs. destruct (parse_rules _ _ _ _ _ _ (parse_of src) Hs) as [[E _]|(a & Ha & HL)]; [discriminate|].
    assert (Hf : forallb (fun r => negb (kind_eqb (fst r) VAL_TYPE)
                    || one_tok (snd r) && forallb (fun k => existsb (kind_eqb k) [NUM_TYPE; VEC_TYPE; REF_TYPE]) (tkinds (snd r)))
                 all_rules = true) by (vm_compute; reflexivity).
    rewrite forallb_forall in Hf. specialize (Hf _ Ha). cbn [fst snd] in Hf.
    rewrite (proj2 (kind_eqb_eq _ _) eq_refl) in Hf. cbn [negb orb] in Hf. apply andb_prop in Hf as [Hf1 Hf2].
    destruct (Lang_one_tok _ _ _ _ HL Hf1) as (k & t & -> & Hk).
    rewrite forallb_forall in Hf2. specialize (Hf2 _ Hk).
    assert (Hx : LexForm k t).
    { apply (parse_tokens _ _ _ _ _ _ (parse_of src)). apply Sub_token. eapply Sub_trans; [exact Hs|].
      econstructor; [now left|constructor]. }
    apply existsb_exists in Hf2 as (k' & Hk' & E). apply kind_eqb_eq in E. subst k'.
    destruct Hk' as [<-|[<-|[<-|[]]]]; cbn in Hx; unfold OneOf in Hx; cbn in Hx.
    - destruct Hx as [<-|[<-|[<-|[<-|[]]]]]; do 2 eexists; [exists VI32|exists VI64|exists VF32|exists VF64];
        (split; [reflexivity|split; [reflexivity|left; split; reflexivity]]).
    - destruct Hx as [<-|[]]. do 2 eexists. exists VV128. split; [reflexivity|]. split; [reflexivity|]. right. left. split; reflexivity.
    - destruct Hx as [<-|[<-|[]]]; do 2 eexists; [exists VFuncRef|exists VExternRef];
        (split; [reflexivity|split; [reflexivity|right; right; split; reflexivity]]).
  Qed.
  Lemma valtype_from_ok e : part e -> is_node e = true -> ekind e = VAL_TYPE ->
    exists v, valtype_from e = Ans v /\ etext e = show_valtype v.
  Proof.
    unfold part, is_node, ekind, etext. intros P N K. destruct e as [g o us]. cbn [el] in *.
    destruct g as [k t|k cs]; [discriminate|]. cbn in K. subst k.
    destruct (val_type_node cs P) as (k & t & v & -> & Et & H). exists v. split.
    - unfold valtype_from, token, children_with_tokens. cbn [el kids find is_node ekind gkind negb andb].
      destruct H as [[-> H]|[[-> ->]|[-> H]]]; cbn; [|reflexivity|]; unfold etext; cbn [el gtext]; rewrite H; reflexivity.
    - cbn. rewrite app_nil_r. exact Et.
  Qed.

  (** ** Signatures *)

  Lemma val_types_ok l : (forall e, In e l -> part e /\ is_node e = true /\ ekind e = VAL_TYPE) ->
    exists vs, map_ans valtype_from l = Ans vs /\ Forall2 (fun e v => etext e = show_valtype v) l vs.
  Proof. intros H. apply map_ans_ok. intros e He. destruct (H e He) as (A & B & C). now apply valtype_from_ok. Qed.
  Lemma childs_part e k c : part e -> In c (childs e k) -> part c /\ is_node c = true /\ ekind c = k.
  Proof.
    intros P H. apply in_childs in H as [H1 H2]. split; [now apply (part_node e)|]. split; [|exact H2].
    now apply (child_node e).
  Qed.
  Lemma sig_param_ok p : part p -> exists ps, sig_param p = Ans ps.
  Proof.
    intros P. unfold sig_param. assert (Hall : exists ts, map_ans valtype_from (childs p VAL_TYPE) = Ans ts).
    { destruct (val_types_ok (childs p VAL_TYPE)) as (vs & E & _); [|eauto]. intros e He. now apply (childs_part p). }
    destruct Hall as (ts & E). destruct (token p IDENT) as [i|].
    - destruct (childs p VAL_TYPE) as [|v vs] eqn:C; [rewrite E; cbn; eauto|].
      destruct (valtype_from_ok v) as (t & -> & _).
      1-3: assert (Hv : In v (childs p VAL_TYPE)) by (rewrite C; now left); destruct (childs_part p _ v P Hv) as (A1 & A2 & A3); assumption.
      cbn. eauto.
    - rewrite E. cbn. eauto.
  Qed.
  Lemma extract_sig_ok g : Sub tree g -> exists sg, extract_sig g = Ans sg.
  Proof.
    intros H. unfold extract_sig. assert (P : part (root_of g)) by exact H.
    destruct (map_ans_total sig_param (childs (root_of g) PARAM)) as (ps & ->).
    { intros x Hx. apply sig_param_ok. now apply (childs_part (root_of g) PARAM). }
    cbn [abind].
    destruct (val_types_ok (flat_map (fun r => childs r VAL_TYPE) (childs (root_of g) RESULT))) as (vs & -> & _).
    { intros e He. apply in_flat_map in He as (r & Hr & He). apply (childs_part r); [|exact He].
      now apply (childs_part (root_of g) RESULT). }
    cbn. eauto.
  Qed.
  Lemma green_child_sub k g c : green_child k g = Some c -> Sub g c /\ exists cs, c = Node k cs.
  Proof.
    unfold green_child. intros H. apply find_some in H as [H1 H2]. destruct c as [k' t|k' cs]; [discriminate|].
    apply kind_eqb_eq in H2. subst k'. split; [|eauto]. destruct g as [|kg l]; [destruct H1|].
    econstructor; [exact H1|constructor].
  Qed.

  (** The node of a symbol. *)
  Lemma raw_green s : In s (raw_symbols nodes) ->
    exists n, pointable src n /\ s_key s = key_of n /\ s_green s = el n.
  Proof.
    intros Hs. destruct (raw_pointable src s Hs) as (n & P & E). exists n. split; [exact P|]. split; [exact E|].
    destruct (raw_cases src s Hs); subst s; cbn [s_key s_green] in *.
    - f_equal. apply (key_inj src); auto; apply P.
    - cbn [def_symbol s_key s_green snd] in *. f_equal.
      assert (Hd : In d (definitions m)).
      { apply in_enum in H2 as (j & H2 & _). cbn in H2. now apply nth_error_In in H2. }
      destruct (def_pointable src m d H Hd) as (A & B & _). apply (key_inj src); auto; apply P.
    - unfold local_symbol, slot_symbol in *. cbn [s_key s_green snd] in *. f_equal.
      assert (Hd : In d (locals_space f)).
      { apply in_enum in H2 as (j & H2 & _). cbn in H2. now apply nth_error_In in H2. }
      destruct (slot_pointable src f d H H1 Hd) as (A & B & _). apply (key_inj src); auto; apply P.
    - cbn [block_symbol s_key s_green] in *. f_equal. apply (key_inj src); auto; apply P.
    - cbn [ref_sym s_key s_green] in *. f_equal. apply (key_inj src); auto; apply P.
  Qed.
  Lemma find_defs_raw k ds d : find_defs tb k = Some ds -> In d ds -> In d (raw_symbols nodes).
  Proof.
    unfold find_defs. destruct find_key as [r|]; [|discriminate]. destruct def_kind as [dk|]; [|discriminate].
    intros H Hd. injection H as <-. apply filter_In in Hd as [Hd _]. exact Hd.
  Qed.
  Lemma first_def_raw e d : first_def tb e = Some d -> In d (raw_symbols nodes).
  Proof.
    unfold first_def. destruct (find_defs tb (key_of e)) as [[|x l]|] eqn:E; try discriminate.
    intros H. injection H as ->. eapply find_defs_raw; [exact E|now left].
  Qed.
  Lemma func_sig_total s : In s (raw_symbols nodes) -> get_func_sig src tb s <> Panics.
  Proof.
    intros Hs. destruct (raw_green s Hs) as (n & P & Ek & Eg). unfold get_func_sig.
    destruct (green_child TYPE_USE (s_green s)) as [tu|] eqn:G; cbn [aopt abind]; [|discriminate].
    apply green_child_sub in G as [G (cs & ->)].
    destruct existsb.
    - destruct (extract_sig_ok (Node TYPE_USE cs)) as (sg & ->); [|discriminate].
      eapply Sub_trans; [|exact G]. rewrite Eg. apply tree_part, P.
    - destruct P as (T & N & K1 & K2). rewrite Ek, to_node_ok by assumption. cbn [amust abind].
      destruct (child n TYPE_USE) as [u|]; cbn [aopt abind]; [|discriminate].
      destruct (child u INDEX) as [i|]; cbn [aopt abind]; [|discriminate].
      destruct (find_defs tb (key_of i)) as [[|d ds]|] eqn:F; cbn [aopt abind hd_error]; try discriminate.
      destruct (find_func_type_of_type_def (s_green d)) as [ft|] eqn:Ft; cbn [aopt abind]; [|discriminate].
      destruct (extract_sig_ok ft) as (sg & ->); [|discriminate].
      apply green_child_sub in Ft as [Ft _]. eapply Sub_trans; [|exact Ft].
      destruct (raw_green d) as (nd & Pd & _ & ->); [eapply find_defs_raw; [exact F|now left]|].
      apply tree_part, Pd.
  Qed.

  (** ** Every checker answers, with ranges inside the document *)

  Definition fine (a : ans (list diag)) : Prop := exists ds, a = Ans ds /\ Forall (DiagIn src) ds.
  Lemma fine_nil : fine (Ans []).
  Proof. exists []. split; [reflexivity|constructor]. Qed.
  Lemma fine_app a f : fine a -> fine f -> fine (abind a (fun x => abind f (fun y => Ans (x ++ y)))).
  Proof.
    intros (x & -> & Hx) (y & -> & Hy). cbn. exists (x ++ y). split; [reflexivity|]. now apply Forall_app.
  Qed.
  Lemma fine_concat {A} (f : A -> ans (list diag)) l : (forall x, In x l -> fine (f x)) ->
    fine (abind (map_ans f l) (fun ls => Ans (concat ls))).
  Proof.
    intros H. destruct (map_ans_ok f (fun _ y => Forall (DiagIn src) y) l H) as (ls & -> & Hl). cbn [abind].
    exists (concat ls). split; [reflexivity|]. clear H. induction Hl; cbn; [constructor|]. apply Forall_app. auto.
  Qed.
  Lemma fine_diag e m : InTree tree e -> fine (abind (diag_at src e m) (fun d => Ans [d])).
  Proof.
    intros T. destruct (diag_at_ok e m T) as (d & E & _). rewrite E. exists [d]. split; [reflexivity|].
    constructor; [|constructor]. eapply diag_at_in; eauto.
  Qed.
  Lemma diags_ok {A} (f : A -> ans diag) l : (forall x, In x l -> exists d, f x = Ans d /\ DiagIn src d) -> fine (map_ans f l).
  Proof.
    intros H. destruct (map_ans_ok f (fun _ d => DiagIn src d) l H) as (ds & -> & Hd). exists ds. split; [reflexivity|].
    clear H. induction Hd; constructor; auto.
  Qed.

  Lemma syntax_fine : fine (syntax_diags src).
  Proof.
    apply diags_ok. intros e He. destruct (C05_error_bounds _ _ _ _ _ (parse_of src) He) as [H1 H2].
    destruct (line_col_total src _ H1) as (l1 & c1 & E1 & _). destruct (line_col_total src _ H2) as (l2 & c2 & E2 & _).
    unfold syntax_diag. rewrite E1, E2. cbn [amust abind]. eexists. split; [reflexivity|]. split.
    - right. split; [eexists; reflexivity|]. exists (e_start e), (e_end e). repeat split; auto.
    - discriminate.
  Qed.
  Lemma in_tree_childs e k c : InTree tree e -> In c (childs e k) -> InTree tree c /\ is_node c = true /\ ekind c = k.
  Proof.
    intros T H. apply in_childs in H as [H1 H2]. split; [now apply (in_tree_child src e)|]. split; [|exact H2].
    now apply (child_node e).
  Qed.
  Lemma multi_fine e : InTree tree e -> fine (multi_modules src e).
  Proof.
    intros T. apply diags_ok. intros m Hm.
    assert (Tm : InTree tree m).
    { apply (in_tree_childs e MODULE); [exact T|]. destruct (childs e MODULE); [destruct Hm|now right]. }
    destruct (diag_at_ok m (Text.T "only one module is allowed in one file") Tm) as (d & E & _). exists d. split; [exact E|].
    eapply diag_at_in; eauto.
  Qed.
  Lemma first_token_in e t : InTree tree e -> first_token e = Some t -> InTree tree t.
  Proof.
    unfold first_token. destruct e as [g o us]. cbn [el off ups]. revert o us. induction g as [k x|k cs IH] using green_ind'; intros o us T.
    - cbn. intros H. injection H as <-. exact T.
    - cbn [first_token_of]. destruct cs as [|c cs]; [discriminate|]. intros H.
      rewrite Forall_forall in IH. apply (IH c (or_introl eq_refl)) in H; [exact H|].
      econstructor; [exact T|]. unfold children_with_tokens. cbn [el]. now left.
  Qed.
  Lemma literal_fine e : InTree tree e -> fine (literal_operands src e).
  Proof.
    intros T. unfold literal_operands. destruct instr_name_of as [nm|]; [|apply fine_nil].
    apply fine_concat. intros [f o] Ho. apply in_combine_r in Ho. unfold check_operand. cbn [fst snd].
    destruct (in_tree_childs e OPERAND o T Ho) as (To & _).
    destruct (first_token o) as [t|] eqn:F; [|apply fine_nil]. destruct existsb; [apply fine_nil|].
    apply fine_diag. eapply first_token_in; eauto.
  Qed.
  Lemma undef_fine : fine (undef_check src tb).
  Proof.
    apply diags_ok. intros s Hs. apply filter_In in Hs as [Hs _]. destruct (raw_green s Hs) as (n & P & E & _).
    unfold undef_diag. rewrite E. destruct (key_range_ok n) as (r & -> & R); [apply P|]. cbn [abind]. eexists. split; [reflexivity|].
    split; [|discriminate]. left. apply (range_of_in n); [apply P|exact R].
  Qed.

  (** The identifier of a declaration, or all of it. *)
  Definition name_elem (n : elem) : elem := match token n IDENT with Some t => t | None => n end.
  Lemma name_elem_in n : InTree tree n -> InTree tree (name_elem n).
  Proof. intros T. unfold name_elem. destruct (token n IDENT) eqn:E; [eapply token_in_tree; eauto|exact T]. Qed.
  Lemma ident_range_eq s n : pointable src n -> s_key s = key_of n ->
    ident_range src s = Ans (estart (name_elem n), eend (name_elem n)).
  Proof.
    intros (T & N & K1 & K2) E. unfold ident_range, name_elem. rewrite E, to_node_ok by assumption. cbn [amust abind].
    destruct (token n IDENT); reflexivity.
  Qed.
  Lemma ident_range_ok s n : pointable src n -> s_key s = key_of n ->
    exists r, ident_lsp_range src s = Ans r /\ RangeOf src (name_elem n) r.
  Proof.
    intros P E. unfold ident_lsp_range. rewrite (ident_range_eq s n P E). cbn [abind]. unfold lsp_of. cbn [fst snd].
    apply (range_of_ok src (name_elem n)). apply name_elem_in, P.
  Qed.
  Lemma ident_range_in s : In s (raw_symbols nodes) -> exists r, ident_lsp_range src s = Ans r /\ RangeIn src r.
  Proof.
    intros Hs. destruct (raw_green s Hs) as (n & P & E & _). destruct (ident_range_ok s n P E) as (r & E1 & R).
    exists r. split; [exact E1|]. apply (range_of_in (name_elem n)); [apply name_elem_in, P|exact R].
  Qed.

  (** Groups hold symbols of the table. *)
  Lemma in_add_group x r s m g : In g (add_to_group x r s m) ->
    forall y, In y (snd g) -> y = s \/ exists g', In g' m /\ In y (snd g').
  Proof.
    induction m as [|[[y' r'] l] m IH]; cbn [add_to_group].
    - intros [<-|[]] y [<-|[]]. now left.
    - destruct (_ && _).
      + intros [<-|Hg] y Hy; cbn in Hy.
        * apply in_app_or in Hy as [Hy|[<-|[]]]; [right|now left]. eexists. split; [now left|exact Hy].
        * right. exists g. split; [now right|exact Hy].
      + intros [<-|Hg] y Hy.
        * right. eexists. split; [now left|exact Hy].
        * destruct (IH Hg y Hy) as [->|(g' & A & B)]; [now left|]. right. exists g'. split; [now right|exact B].
  Qed.
  Lemma in_groups l g y : In g (name_groups l) -> In y (snd g) -> In y l.
  Proof.
    unfold name_groups. assert (Hgen : forall l m g y, In g (fold_left (fun m s => match i_name (s_idx s) with Some x => add_to_group x (s_region s) s m | None => m end) l m) ->
      In y (snd g) -> In y l \/ exists g', In g' m /\ In y (snd g')).
    { clear. induction l as [|s l IH]; intros m g y; cbn [fold_left].
      - intros Hg Hy. right. eauto.
      - intros Hg Hy. destruct (IH _ g y Hg Hy) as [Hy'|(g' & Hg' & Hy')]; [left; now right|].
        destruct (i_name (s_idx s)) as [x|].
        + destruct (in_add_group _ _ _ _ _ Hg' y Hy') as [->|(g'' & A & B)]; [left; now left|]. right. eauto.
        + right. eauto. }
    intros Hg Hy. destruct (Hgen l [] g y Hg Hy) as [H|(g' & [] & _)]. exact H.
  Qed.
  Lemma dup_scope_fine : fine (dup_scope src tb).
  Proof.
    unfold dup_scope. apply fine_concat. intros g Hg. apply filter_In in Hg as [Hg _].
    assert (Hall : forall s, In s (snd g) -> In s (raw_symbols nodes)).
    { intros s Hs. pose proof (in_groups _ _ _ Hg Hs) as H. apply filter_In in H as [H _]. exact H. }
    unfold group_diags. apply diags_ok. intros s Hs. unfold group_diag.
    destruct (ident_range_in s (Hall s Hs)) as (r & -> & R). cbn [abind].
    destruct (map_ans_ok (ident_lsp_range src) (fun _ r => RangeIn src r) (filter (fun o => negb (symbol_eqb o s)) (snd g)))
      as (rs & -> & Hrs).
    { intros o Ho. apply filter_In in Ho as [Ho _]. apply ident_range_in, Hall, Ho. }
    cbn [abind]. eexists. split; [reflexivity|]. split; [left; exact R|]. cbn [d_related]. intros l Hl. injection Hl as <-.
    intros p Hp. apply in_map_iff in Hp as (r' & <- & Hr'). cbn [fst]. exact (Forall2_in_r _ _ _ _ Hrs Hr').
  Qed.

  (** Going up from a block reaches the end. *)
  Lemma up_depth g : forall o us e, Desc (mk_elem g o us) e -> length (ups e) <= length us + gdepth g.
  Proof.
    induction g as [k x|k cs IH] using green_ind'; intros o us e H.
    - apply Desc_top in H as [<-|(c & Hc & _)]; [cbn; lia|destruct Hc].
    - apply Desc_top in H as [<-|(c & Hc & H)]; [cbn; lia|].
      apply child_in in Hc as (l & g & r & Heq & ->). cbn in Heq. subst cs.
      rewrite Forall_forall in IH. apply (IH g (in_elt _ _ _)) in H. cbn [length ups] in H. cbn [gdepth].
      assert (gdepth g <= list_max (map gdepth (l ++ g :: r))) by (apply list_max_in, in_map, in_elt). lia.
  Qed.
  Lemma find_key_block n : InTree tree n -> is_node n = true -> is_block n = true ->
    exists p, parent n = Some p /\ InTree tree p /\ is_node p = true
      /\ length (ups n) = S (length (ups p)) /\ find_key tb (key_of n) = Some (block_symbol p n).
  Proof.
    intros T N B. destruct (block_parent src n T N B) as (p & P1 & P2 & P3 & P4). exists p.
    split; [exact P1|]. split; [exact P3|]. split; [exact P4|]. split.
    - apply in_children in P2 as [P2 _]. apply child_in in P2 as (l & g & r & _ & ->). reflexivity.
    - apply (find_key_spec src (block_symbol p n)). now apply block_symbol_in.
  Qed.
  Lemma parent_blocks_spec fuel : forall n, InTree tree n -> is_node n = true -> length (ups n) < fuel ->
    exists ps, parent_blocks fuel tb (key_of n) = Some ps
      /\ Forall2 (fun s b => exists p, s = block_symbol p b) ps (while_block (ancestors n))
      /\ Forall (fun s => In s (raw_symbols nodes)) ps.
  Proof.
    induction fuel as [|fuel IH]; intros n T N L; [lia|].
    cbn [parent_blocks]. destruct (is_block n) eqn:B.
    - destruct (find_key_block n T N B) as (p & P1 & P2 & P3 & P4 & ->). cbn [block_symbol s_kind s_region skind_eqb].
      destruct (skind_eq_dec SBlockDef SBlockDef) as [_|C]; [|now destruct C].
      destruct (IH p P2 P3) as (ps & -> & F1 & F2); [lia|]. eexists. split; [reflexivity|]. split.
      + assert (A : ancestors n = n :: ancestors p).
        { destruct (block_parent src n T N B) as (q & Q1 & Q2 & _). rewrite P1 in Q1. injection Q1 as <-.
          apply ancestors_child. now apply in_children in Q2 as [Q2 _]. }
        rewrite A. cbn [while_block]. rewrite B. constructor; [eauto|exact F1].
      + constructor; [|exact F2]. now apply block_symbol_in.
    - assert (E : while_block (ancestors n) = []) by (unfold ancestors; cbn [while_block]; now rewrite B).
      rewrite E. destruct (find_key tb (key_of n)) as [s|] eqn:F.
      + destruct (skind_eqb (s_kind s) SBlockDef) eqn:K.
        * exfalso. apply skind_eqb_eq in K. unfold find_key in F. apply find_some in F as [F1 F2]. apply key_eqb_eq in F2.
          destruct (block_def_out src s F1 K) as (b & p & Tb & Nb & Bb & Pb & ->). cbn in F2.
          assert (b = n) by (apply (key_inj src); auto). congruence.
        * exists []. repeat split; constructor.
      + exists []. repeat split; constructor.
  Qed.
  Lemma in_insert p q l : In p (insert_by_start q l) <-> p = q \/ In p l.
  Proof.
    induction l as [|x l IH]; cbn [insert_by_start In]; [intuition congruence|].
    destruct Nat.leb; cbn [In]; [intuition congruence|]. rewrite IH. tauto.
  Qed.
  Lemma in_sort p l : In p (sort_by_start l) <-> In p l.
  Proof.
    induction l as [|x l IH]; cbn [sort_by_start fold_right In]; [tauto|]. fold (sort_by_start l).
    rewrite in_insert, IH. intuition congruence.
  Qed.
  Lemma region_block b p : InTree tree b -> is_node b = true -> is_block b = true -> parent b = Some p ->
    exists ps, parent_blocks (S (gdepth tree)) tb (key_of p) = Some ps
      /\ Forall2 (fun s b => exists p, s = block_symbol p b) ps (while_block (ancestors p))
      /\ Forall (fun s => In s (raw_symbols nodes)) ps.
  Proof.
    intros T N B P. destruct (block_parent src b T N B) as (q & Q1 & Q2 & Q3 & Q4). rewrite P in Q1. injection Q1 as <-.
    apply parent_blocks_spec; auto. pose proof (up_depth tree 0 [] p Q3). cbn [length] in H. lia.
  Qed.
  Lemma nested_fine s : In s (raw_symbols nodes) -> fine (nested_diag src tb s).
  Proof.
    intros Hs. unfold nested_diag. destruct (s_kind s) eqn:K; try apply fine_nil.
    destruct (i_name (s_idx s)) as [x|]; [|apply fine_nil].
    destruct (block_def_out src s Hs K) as (b & p & Tb & Nb & Bb & Pb & E).
    unfold nested_ranges. destruct (region_block b p Tb Nb Bb Pb) as (ps & Eps & _ & Fps).
    assert (Er : s_region s = key_of p) by now rewrite E. rewrite Er, Eps. cbn [amust abind].
    match goal with |- context[map_ans (ident_range src) ?l] => set (L := l) end.
    destruct (map_ans_ok (ident_range src) (fun _ q => exists n, InTree tree n /\ q = (estart n, eend n)) L) as (rs & -> & Hrs).
    { intros y Hy. assert (Hr : In y (raw_symbols nodes)).
      { subst L. apply in_app_or in Hy as [Hy|Hy]; apply filter_In in Hy as [Hy _]; [|exact Hy].
        rewrite Forall_forall in Fps. auto. }
      destruct (raw_green y Hr) as (n & Pn & En & _). rewrite (ident_range_eq y n Pn En). eexists. split; [reflexivity|].
      exists (name_elem n). split; [apply name_elem_in, Pn|reflexivity]. }
    cbn [abind]. destruct Nat.ltb; [|apply fine_nil].
    destruct (ident_range_in s Hs) as (r & -> & R). cbn [abind].
    destruct (map_ans_ok (lsp_of src) (fun _ r => RangeIn src r) (sort_by_start rs)) as (rr & -> & Hrr).
    { intros q Hq. apply (proj1 (in_sort _ _)) in Hq. assert (Hn : exists n, InTree tree n /\ q = (estart n, eend n)).
      { exact (Forall2_in_r (fun q => exists n, InTree tree n /\ q = (estart n, eend n)) _ _ _ Hrs Hq). }
      destruct Hn as (n & Tn & ->). destruct (range_of_ok src n Tn) as (r' & E' & R'). exists r'. split; [exact E'|].
      now apply (range_of_in n). }
    cbn [abind]. eexists. split; [reflexivity|]. constructor; [|constructor]. split; [left; exact R|].
    cbn [d_related]. intros l Hl. injection Hl as <-. intros q Hq. apply in_map_iff in Hq as (r' & <- & Hr'). cbn [fst].
    exact (Forall2_in_r _ _ _ _ Hrr Hr').
  Qed.
  Lemma dup_fine : fine (dup_names src tb).
  Proof.
    unfold dup_names. apply fine_app; [apply dup_scope_fine|]. unfold dup_nested. apply fine_concat.
    intros s Hs. now apply nested_fine.
  Qed.

  (** ** Types *)

  Lemma find_param_raw k s : find_param_or_local_def tb k = Some s -> In s (raw_symbols nodes).
  Proof.
    unfold find_param_or_local_def. destruct find_local_ref; [|discriminate]. intros H. apply find_some in H as [H _]. exact H.
  Qed.
  Lemma resolve_type_total e : resolve_type src tb e <> Panics.
  Proof.
    unfold resolve_type. destruct kind_eqb; [|discriminate]. destruct instr_name_of as [nm|]; cbn [aopt abind]; [|discriminate].
    destruct (text_eqb nm (Text.T "call")).
    { destruct (hd_error (operands e)) as [i|]; cbn [aopt abind]; [|discriminate].
      destruct (first_def tb i) as [f|] eqn:F; cbn [aopt abind]; [|discriminate].
      pose proof (func_sig_total f (first_def_raw _ _ F)). destruct (get_func_sig src tb f); cbn [abind]; congruence. }
    destruct (text_eqb nm (Text.T "local.get")).
    { destruct (hd_error (operands e)) as [i|]; cbn [aopt abind]; [|discriminate].
      destruct find_param_or_local_def as [s|]; cbn [aopt abind]; [|discriminate].
      destruct (extract_type (s_green s)); cbn; discriminate. }
    destruct (text_eqb nm (Text.T "global.get")).
    { destruct (hd_error (operands e)) as [i|]; cbn [aopt abind]; [|discriminate].
      destruct (first_def tb i) as [s|]; cbn [aopt abind]; [|discriminate].
      destruct (extract_global_type (s_green s)); cbn; discriminate. }
    destruct (meta_of nm); cbn; discriminate.
  Qed.
  Lemma expected_total e : resolve_expected_types src tb e <> Panics
    /\ forall ps, resolve_expected_types src tb e = Ans ps ->
         forall t k, In (t, Some k) ps -> exists n, InTree tree n /\ k = key_of n.
  Proof.
    unfold resolve_expected_types. destruct instr_name_of as [nm|]; cbn [aopt abind]; [|split; discriminate].
    destruct (text_eqb nm (Text.T "call")).
    - destruct (hd_error (operands e)) as [i|]; cbn [aopt abind]; [|split; discriminate].
      destruct (first_def tb i) as [f|] eqn:F; cbn [aopt abind]; [|split; discriminate].
      pose proof (first_def_raw _ _ F) as Hf. destruct (raw_green f Hf) as (n & (T & N & K1 & K2) & E & _).
      rewrite E, to_node_ok by assumption. cbn [amust abind].
      pose proof (func_sig_total f Hf) as Hs. destruct (get_func_sig src tb f) as [sg| |]; cbn [abind]; try (split; discriminate).
      + split; [discriminate|]. intros ps H. injection H as <-. intros t k Hin. apply in_combine_r in Hin.
        apply in_map_iff in Hin as (s & Es & Hin). injection Es as <-. apply filter_In in Hin as [Hin _].
        apply filter_In in Hin as [Hin _]. destruct (raw_green s Hin) as (n' & P' & E' & _). exists n'. split; [apply P'|exact E'].
      + now destruct Hs.
    - destruct (meta_of nm) as [m|]; cbn [aopt abind]; [|split; discriminate]. split; [discriminate|].
      intros ps H. injection H as <-. intros t k Hin. apply in_map_iff in Hin as (? & E & _). discriminate.
  Qed.
  Lemma mismatches_fine e ps rs : resolve_expected_types src tb e = Ans ps ->
    (forall t x, In (t, x) rs -> InTree tree x) -> fine (type_mismatches src ps rs).
  Proof.
    intros He Hr. destruct (expected_total e) as [_ H]. specialize (H ps He).
    unfold type_mismatches. apply fine_concat. intros [[t k] [t' x]] Hin.
    pose proof (in_combine_l _ _ _ _ Hin) as H1. pose proof (in_combine_r _ _ _ _ Hin) as H2.
    unfold type_mismatch. destruct t as [v|]; [|apply fine_nil]. destruct t' as [v'|]; [|apply fine_nil].
    destruct valtype_eqb; [apply fine_nil|].
    pose proof (Hr _ _ H2) as Tx. destruct (range_of_ok src x Tx) as (r & -> & R). cbn [abind].
    destruct k as [k|]; cbn [abind].
    - destruct (H _ _ H1) as (n & Tn & ->). destruct (key_range_ok n Tn) as (r' & -> & R'). cbn [abind].
      eexists. split; [reflexivity|]. constructor; [|constructor]. split; [left; now apply (range_of_in x)|].
      cbn [d_related]. intros l El. injection El as <-. intros q [<-|[]]. now apply (range_of_in n).
    - eexists. split; [reflexivity|]. constructor; [|constructor]. split; [left; now apply (range_of_in x)|]. discriminate.
  Qed.
  Lemma receive_total known o : InTree tree o ->
    exists ts ds, receive src tb known o = Ans (ts, ds) /\ Forall (DiagIn src) ds /\ forall t x, In (t, x) ts -> x = o.
  Proof.
    intros T. unfold receive. destruct operand_instr as [i|].
    - destruct (catch_total _ (resolve_type_total i)) as (r & ->). cbn [abind]. do 2 eexists. split; [reflexivity|].
      split; [constructor|]. intros t x H. destruct r as [ts|]; [|destruct H]. apply in_map_iff in H as (? & E & _). congruence.
    - destruct known.
      + destruct (fine_diag o (Text.T "expected instr") T) as (ds & E & F).
        destruct (diag_at_ok o (Text.T "expected instr") T) as (d & Ed & _). rewrite Ed in *. cbn [abind] in *. injection E as <-.
        do 2 eexists. split; [reflexivity|]. split; [exact F|]. intros t x [].
      + do 2 eexists. split; [reflexivity|]. split; [constructor|]. intros t x [].
  Qed.
  Lemma skipn_in {A} n (l : list A) x : In x (skipn n l) -> In x l.
  Proof. revert n. induction l; intros [|n]; cbn; auto. intros H. right. eauto. Qed.
  Lemma firstn_in {A} n (l : list A) x : In x (firstn n l) -> In x l.
  Proof. revert n. induction l; intros [|n]; cbn; auto; try (intros []; fail). intros [->|H]; eauto. Qed.
  Lemma folded_fine e : InTree tree e -> fine (check_folded src tb e).
  Proof.
    intros T. unfold check_folded. destruct instr_name_of as [nm|]; [|apply fine_nil].
    destruct (token e L_PAREN); [|apply fine_nil]. set (sk := if text_eqb nm (Text.T "call") then 1 else _).
    set (kn := match meta_of nm with Some _ => true | None => false end).
    destruct (map_ans_ok (receive src tb kn)
                (fun o p => Forall (DiagIn src) (snd p) /\ forall t x, In (t, x) (fst p) -> InTree tree x)
                (skipn sk (operands e))) as (rc & -> & Hrc).
    { intros o Ho. apply skipn_in in Ho. destruct (in_tree_childs e OPERAND o T Ho) as (To & _).
      destruct (receive_total kn o To) as (ts & ds & E & F1 & F2). exists (ts, ds). split; [exact E|]. split; [exact F1|].
      intros t x Hx. apply F2 in Hx. now subst. }
    cbn [abind].
    assert (F1 : Forall (DiagIn src) (concat (map snd rc))).
    { clear - Hrc. induction Hrc as [|x y l l' [H _] _ IH]; cbn; [constructor|]. apply Forall_app. auto. }
    assert (F2 : forall t x, In (t, x) (concat (map fst rc)) -> InTree tree x).
    { clear - Hrc. induction Hrc as [|x y l l' [_ H] _ IH]; cbn; [intros _ _ []|]. intros t z Hz.
      apply in_app_or in Hz as [Hz|Hz]; eauto. }
    pose proof (proj1 (expected_total e)) as Hx.
    destruct (resolve_expected_types src tb e) as [ps| |] eqn:Ex; cbn [catch abind]; [| |now destruct Hx].
    - set (a := if Nat.eqb _ _ then _ else _).
      assert (Fa : fine a).
      { subst a. destruct Nat.eqb; [apply fine_nil|]. apply fine_diag, T. }
      destruct Fa as (d2 & -> & Fa). cbn [abind].
      destruct (mismatches_fine e ps (concat (map fst rc)) Ex F2) as (d3 & -> & F3). cbn [abind].
      eexists. split; [reflexivity|]. rewrite !Forall_app. auto.
    - eexists. split; [reflexivity|exact F1].
  Qed.
  Lemma step_fine stack e : InTree tree e -> (forall t x, In (t, x) stack -> InTree tree x) ->
    exists st ds, stack_step src tb stack e = Ans (st, ds) /\ Forall (DiagIn src) ds
      /\ forall t x, In (t, x) st -> InTree tree x.
  Proof.
    intros T Hs. unfold stack_step. destruct kind_eqb; [|exists stack, []; auto].
    pose proof (proj1 (expected_total e)) as Hx.
    destruct (resolve_expected_types src tb e) as [ps| |] eqn:Ex; cbn [catch abind]; [| |now destruct Hx].
    - set (n := match token e L_PAREN with Some _ => 0 | None => length ps end).
      set (a := if Nat.leb _ _ then _ else _).
      assert (Fa : fine a).
      { subst a. destruct Nat.leb; [apply fine_nil|]. apply fine_diag, T. }
      destruct Fa as (d1 & -> & F1). cbn [abind].
      destruct (mismatches_fine e ps (skipn (length stack - n) stack) Ex) as (d2 & -> & F2).
      { intros t x Hin. apply skipn_in in Hin. eauto. }
      cbn [abind]. destruct (catch_total _ (resolve_type_total e)) as (r & ->). cbn [abind].
      do 2 eexists. split; [reflexivity|]. split; [now apply Forall_app|].
      intros t x Hin. apply in_app_or in Hin as [Hin|Hin].
      + apply firstn_in in Hin. eauto.
      + destruct r; [|destruct Hin]. apply in_map_iff in Hin as (? & E & _). congruence.
    - exists stack, []. auto.
  Qed.
  Lemma loop_fine l : forall stack, (forall e, In e l -> InTree tree e) -> (forall t x, In (t, x) stack -> InTree tree x) ->
    fine (stack_loop src tb stack l).
  Proof.
    induction l as [|e l IH]; intros stack Hl Hs; cbn [stack_loop]; [apply fine_nil|].
    destruct (step_fine stack e (Hl e (or_introl eq_refl)) Hs) as (st & ds & -> & F1 & F2). cbn [abind fst snd].
    destruct (IH st) as (ds' & -> & F3); [intros; apply Hl; now right|exact F2|]. cbn [abind].
    eexists. split; [reflexivity|]. now apply Forall_app.
  Qed.
  Lemma stacked_fine e : InTree tree e -> fine (check_stacked src tb e).
  Proof.
    intros T. unfold check_stacked. destruct forallb; [apply fine_nil|]. apply loop_fine; [|intros t x []].
    intros c Hc. apply filter_In in Hc as [Hc _]. now apply (in_tree_child src e).
  Qed.
  Lemma node_fine e : InTree tree e -> fine (check_node src tb e).
  Proof.
    intros T. unfold check_node. destruct (ekind e); try apply fine_nil;
      first [apply multi_fine, T | apply stacked_fine, T | apply fine_app; [apply literal_fine, T|apply folded_fine, T]].
  Qed.

  (** ** All diagnostics *)

  Lemma check_parts : exists a ls c d,
    syntax_diags src = Ans a
    /\ map_ans (check_node src tb) (descendants (root_of tree)) = Ans ls
    /\ undef_check src tb = Ans c /\ dup_names src tb = Ans d
    /\ check src = Ans (a ++ concat ls ++ c ++ d)
    /\ Forall (DiagIn src) (a ++ concat ls ++ c ++ d).
  Proof.
    destruct syntax_fine as (a & Ea & Fa). destruct undef_fine as (c & Ec & Fc). destruct dup_fine as (d & Ed & Fd).
    destruct (fine_concat (check_node src tb) (descendants (root_of tree))) as (l & El & Fl).
    { intros x Hx. apply in_descendants in Hx as [Hx _]. apply node_fine, Hx. }
    unfold check. rewrite symbols_spec. cbn [abind]. rewrite Ea, Ec, Ed. cbn [abind].
    destruct (map_ans (check_node src tb) (descendants (root_of tree))) as [ls| |]; cbn [abind] in *; try discriminate.
    injection El as <-. exists a, ls, c, d. repeat (split; [reflexivity|]). rewrite !Forall_app. auto.
  Qed.
  Lemma check_in ds d : check src = Ans ds ->
    (In d ds <->
       (exists e, In e (errs_of src) /\ syntax_diag src e = Ans d)
       \/ (exists n, InTree tree n /\ is_node n = true /\ among d (check_node src tb n))
       \/ (exists s, In s (raw_symbols nodes) /\ is_undefined tb s = true /\ undef_diag src s = Ans d)
       \/ among d (dup_names src tb)).
  Proof.
    intros H. destruct check_parts as (a & ls & c & dd & Ea & El & Ec & Ed & E & _). rewrite E in H. injection H as <-.
    rewrite !in_app_iff, (concat_among _ _ _ d El). unfold syntax_diags in Ea. rewrite (map_ans_in _ _ _ d Ea).
    unfold undef_check in Ec. rewrite (map_ans_in _ _ _ d Ec).
    assert (X1 : (exists x, In x (descendants (root_of tree)) /\ among d (check_node src tb x)) <->
                 exists n, InTree tree n /\ is_node n = true /\ among d (check_node src tb n)).
    { split; [intros (x & Hx & Hd); apply in_descendants in Hx as [A B]; eauto|].
      intros (n & A & B & Hd). exists n. split; [now apply in_descendants|exact Hd]. }
    assert (X2 : (exists x, In x (filter (is_undefined tb) (symbols tb)) /\ undef_diag src x = Ans d) <->
                 exists s, In s (raw_symbols nodes) /\ is_undefined tb s = true /\ undef_diag src s = Ans d).
    { split; [intros (x & Hx & Hd); apply filter_In in Hx as [A B]; eauto|].
      intros (n & A & B & Hd). exists n. split; [now apply filter_In|exact Hd]. }
    assert (X3 : In d dd <-> among d (dup_names src tb)).
    { rewrite Ed. split; [intros Hd; exists dd; auto|]. intros (l & El' & Hd). injection El' as <-. exact Hd. }
    rewrite X1, X2, X3. tauto.
  Qed.
End Doc.
