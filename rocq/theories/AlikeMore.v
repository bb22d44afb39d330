(** Rename, document symbols, call hierarchy and inlay hints of documents that
    are alike (C54, C55). *)

From Coq Require Import String List NArith Bool Arith Lia.
From Verif Require Import Text Kind Green SpecParser SpecSyntax Lexer LexerFacts Winnow Grammar Sem Lossless Total
  Bounds Lang TokForm Shape ThmParser Red Unique LineIndex ThmTree Cursor ThmPos Doc Ast Binder Preorder SpecBinder BinderFacts
  BinderDefs Blocks Nav NavSpec NavFacts ThmNav RefFacts Types Check CheckFacts Counts ThmStructure Features ThmCalls SpecAlike SpecAlikeMore Alike AlikeNav AlikeCheck.
From Verif Require ThmPrepare SpecComplete SigFacts.
Import ListNotations.

Lemma sts_app Name a a' b b' : SameTexts Name a a' -> SameTexts Name b b' -> SameTexts Name (a ++ b) (a' ++ b').
Proof.
  induction 1 as [|c m m' H IH|x x' m m' Hx H IH]; intros Hb; [exact Hb| |]; rewrite <- !app_assoc.
  - apply STs_same. auto.
  - apply STs_name; auto.
Qed.
Lemma sts_refl Name a : SameTexts Name a a.
Proof. rewrite <- (app_nil_r a). apply STs_same. constructor. Qed.
Lemma sts_one (Name : text -> text -> Prop) x x' : Name x x' -> SameTexts Name x x'.
Proof. intros H. rewrite <- (app_nil_r x), <- (app_nil_r x'). apply STs_name; [exact H|constructor]. Qed.
Lemma sts_imp (P Q : text -> text -> Prop) : (forall x x', P x x' -> Q x x') -> forall a a', SameTexts P a a' -> SameTexts Q a a'.
Proof. intros H. induction 1; [constructor|now apply STs_same|apply STs_name; auto]. Qed.

(** ** Nodes of a document end with a token or a node *)

Definition Ends (l : list green) : Prop := forall g, hd_error (rev l) = Some g -> significant g = true.
Definition EndsBelow (l : list green) : Prop := forall g k cs, In g l -> Sub g (Node k cs) -> Ends cs.
Lemma ends_app l m : Ends l -> Ends m -> Ends (l ++ m).
Proof.
  intros Hl Hm g. rewrite rev_app_distr. destruct (rev m) as [|x r] eqn:E; cbn [app]; [apply Hl|]. intros H. apply Hm. now rewrite E.
Qed.
Lemma ends_last l g : significant g = true -> Ends (l ++ [g]).
Proof. intros S x. rewrite rev_app_distr. cbn. congruence. Qed.
Lemma eb_app l m : EndsBelow l -> EndsBelow m -> EndsBelow (l ++ m).
Proof. intros H1 H2 g k cs Hin. apply in_app_or in Hin as [Hin|Hin]; eauto. Qed.
Lemma eb_tok k t : EndsBelow [Tok k t].
Proof. intros g k' cs [<-|[]] H. inversion H. Qed.
Lemma eb_trivia l : SpecComplete.Trivia l -> EndsBelow l.
Proof.
  intros H g k cs Hin Hs. unfold SpecComplete.Trivia in H. rewrite Forall_forall in H. specialize (H _ Hin). destruct g; [inversion Hs|destruct H].
Qed.
Lemma eb_node k cs : EndsBelow cs -> Ends cs -> EndsBelow [Node k cs].
Proof. intros H1 H2 g k' cs' [<-|[]] H. inversion H; subst; [exact H2|]. eapply H1; eassumption. Qed.
Lemma reads_ends e l : SpecComplete.Reads e l -> Ends l /\ EndsBelow l.
Proof.
  induction 1 as [s tr Ht|k t tr Ht Hk|b t tr Ht Hb|k e cs tr Ht HR IH HT|k e cs _ IH|i l _ IH| |a b l m _ IHa _ IHb
                 |a b l _ IH|a b l _ IH|a|a l m _ IHa _ IHm]; auto;
    try (split; [apply ends_last; cbn; try rewrite Hk; reflexivity|apply eb_app; [now apply eb_trivia|apply eb_tok]]; fail);
    try (split; [discriminate|intros ? ? ? []]; fail).
  - split; [now apply ends_last|]. apply eb_app; [now apply eb_trivia|]. apply eb_node; apply IH.
  - split; [now apply (ends_last [])|]. apply eb_node; apply IH.
  - split; [apply ends_app; [apply IHa|apply IHb]|apply eb_app; [apply IHa|apply IHb]].
  - split; [apply ends_app; [apply IHa|apply IHm]|apply eb_app; [apply IHa|apply IHm]].
Qed.
Lemma document_ends tree : SpecComplete.Document tree -> forall e g, InTree tree e -> ekind e <> ROOT ->
  hd_error (rev (gchildren (el e))) = Some g -> significant g = true.
Proof.
  intros (ms & tl & -> & HR & Ht & _) o g Ho Hk Hg. pose proof (Desc_Sub _ _ Ho) as Hs. cbn [root_of el] in Hs.
  unfold ekind in Hk. destruct (el o) as [|k cs]; [discriminate Hg|]. cbn in Hk, Hg.
  inversion Hs as [|? ? c ? Hin Hs']; subst; [congruence|].
  refine (eb_app ms tl _ _ c k cs _ _ g Hg); auto; [eapply reads_ends; exact HR|now apply eb_trivia].
Qed.

Section Alike.
  Variable Name : text -> text -> Prop.
  Hypothesis HN : forall x x' y y', Name x x' -> Name y y' -> text_eqb x y = text_eqb x' y'.
  Variable src src' : text.
  Notation tree := (tree_of src).
  Notation tree' := (tree_of src').
  Hypothesis HS : Sim Name tree tree'.
  Notation R := (R Name tree tree').
  Notation RN := (RN Name src src').
  Notation SymM := (SymM Name src src').
  Notation SymT := (SymT Name src src').
  Notation KM := (KM Name src src').
  Notation tb := (the_table src).
  Notation tb' := (the_table src').
  Notation SameP := (SamePlace src src').
  Notation R_kind := (R_kind Name tree tree').
  Notation RN_kind := (RN_kind Name src src').
  Notation KM_eqb := (KM_eqb Name src src').
  Notation T_table := (T_table Name src src' HS).
  Notation A_range := (A_range Name src src').
  Notation R_token := (R_token Name tree tree').

  (** ** Names *)

  Lemma A_symbol_name s s' : SymM s s' -> SameTexts Name (symbol_name s) (symbol_name s').
  Proof.
    intros H. destruct (SM_idx _ _ _ _ _ H) as [E O]. unfold symbol_name. rewrite <- E.
    destruct O; [apply sts_refl|now apply sts_one].
  Qed.

  (** ** Document symbols *)

  Notation SS := (SameSymbol Name src src').
  Definition entM (p p' : key * doc_symbol) : Prop := KM (fst p) (fst p') /\ SS (snd p) (snd p').
  Lemma A_key_range s s' : SymM s s' -> AnsR SameP (key_range src (s_key s)) (key_range src' (s_key s')).
  Proof. apply R_key_range. Qed.
  Lemma A_entry s s' : SymT s s' -> AnsR (Forall2 entM) (doc_entry src s) (doc_entry src' s').
  Proof.
    intros H. pose proof H as (HM & _). unfold doc_entry. rewrite <- (SM_kind _ _ _ _ _ HM).
    assert (G : forall k, AnsR (Forall2 entM)
      (abind (key_range src (s_key s)) (fun r => abind (amust (to_node tree (s_key s))) (fun n =>
        abind (match token n IDENT with Some t => range_of src t | None => Ans r end) (fun sel => Ans [(s_key s, mk_ds (symbol_name s) k r sel None)]))))
      (abind (key_range src' (s_key s')) (fun r => abind (amust (to_node tree' (s_key s'))) (fun n =>
        abind (match token n IDENT with Some t => range_of src' t | None => Ans r end) (fun sel => Ans [(s_key s', mk_ds (symbol_name s') k r sel None)]))))).
    { intros k. eapply AR_bind; [apply A_key_range, HM|]. intros r r' Hr. eapply AR_bind; [apply AR_must, (SymT_to_node Name src src'), H|].
      intros n n' [Hn _]. eapply AR_bind with (P := SameP).
      - destruct (R_token IDENT _ _ eq_refl Hn) as [|t t' Ht]; [now constructor|now apply A_range].
      - intros x x' Hx. constructor. constructor; [|constructor]. split; [eapply SM_key; exact HM|].
        constructor; auto. now apply A_symbol_name. }
    destruct (is_field_kind (s_kind s)) as [[]|]; [|apply G|apply G|apply A_nil].
    eapply AR_bind; [apply A_key_range, HM|]. intros r r' Hr. constructor. constructor; [|constructor]. split; [eapply SM_key; exact HM|].
    constructor; auto. apply sts_refl.
  Qed.
  Lemma M_remove k k' m m' : KM k k' -> Forall2 entM m m' -> Forall2 entM (map_remove k m) (map_remove k' m').
  Proof.
    intros Hk. apply F2_filter. intros p p' [Hp _]. f_equal. now apply KM_eqb.
  Qed.
  Lemma M_insert m m' p p' : Forall2 entM m m' -> entM p p' -> Forall2 entM (map_insert m p) (map_insert m' p').
  Proof. intros H Hp. unfold map_insert. apply F2_snoc; [|exact Hp]. apply M_remove; [apply Hp|exact H]. Qed.
  Lemma M_get k k' m m' : KM k k' -> Forall2 entM m m' -> OptR SS (map_get k m) (map_get k' m').
  Proof.
    intros Hk Hm. unfold map_get.
    assert (F : OptR entM (find (fun p => key_eqb (fst p) k) m) (find (fun p => key_eqb (fst p) k') m'))
      by (eapply F2_find; [|exact Hm]; intros p p' [Hp _]; now apply KM_eqb).
    destruct F as [|p p' Hp]; constructor. apply Hp.
  Qed.
  Lemma M_update k k' f f' m m' : KM k k' -> (forall d d', SS d d' -> SS (f d) (f' d')) -> Forall2 entM m m' ->
    Forall2 entM (map_update k f m) (map_update k' f' m').
  Proof.
    intros Hk Hf. unfold map_update. apply F2_map. intros p p' Hp. rewrite (KM_eqb _ _ _ _ (proj1 Hp) Hk).
    destruct key_eqb; [|exact Hp]. split; cbn; [apply Hp|apply Hf, Hp].
  Qed.
  Lemma F2_rev {A B} (P : A -> B -> Prop) l l' : Forall2 P l l' -> Forall2 P (rev l) (rev l').
  Proof. induction 1; cbn [rev]; [constructor|now apply F2_snoc]. Qed.
  Lemma S_reverse d d' : SS d d' -> SS (reverse_children d) (reverse_children d').
  Proof. intros []; unfold reverse_children; cbn; constructor; auto. now apply F2_rev. Qed.
  Lemma S_push c c' d d' : SS c c' -> SS d d' -> SS (push_child c d) (push_child c' d').
  Proof.
    intros Hc []; unfold push_child; cbn; constructor; auto; now apply F2_snoc.
  Qed.
  Lemma M_attach m m' s s' : Forall2 entM m m' -> SymM s s' -> Forall2 entM (attach m s) (attach m' s').
  Proof.
    intros Hm Hs. pose proof (SM_key _ _ _ _ _ Hs) as HK. pose proof (SM_region _ _ _ _ _ Hs) as HR. unfold attach.
    destruct (M_get _ _ _ _ HK Hm) as [|d d' Hd]; [exact Hm|]. pose proof (M_remove _ _ _ _ HK Hm) as Hm'.
    destruct (M_get _ _ _ _ HR Hm') as [|x x' Hx]; [exact Hm'|]. apply M_update; auto. intros e e' He. apply S_push; auto. now apply S_reverse.
  Qed.
  Lemma F2_fold {A B C D} (P : A -> B -> Prop) (Q : C -> D -> Prop) f g l l' : Forall2 Q l l' ->
    (forall a b x y, P a b -> Q x y -> P (f a x) (g b y)) -> forall a b, P a b -> P (fold_left f l a) (fold_left g l' b).
  Proof. induction 1; intros Hf a b Hab; cbn [fold_left]; auto. Qed.
  Lemma KM_kind k k' : KM k k' -> key_kind k = key_kind k'.
  Proof. intros (e & e' & He & -> & ->). exact (RN_kind _ _ He). Qed.
  Lemma A_document_symbol : AnsR (Forall2 SS) (document_symbol src) (document_symbol src').
  Proof.
    unfold document_symbol. rewrite !the_symbols_eq. cbn [abind].
    eapply AR_bind; [eapply AR_map; [apply A_entry|apply T_table]|]. intros es es' Hes. constructor.
    eapply F2_flat_map.
    2: { eapply (F2_fold (Forall2 entM) SymM); [|intros; now apply M_attach|].
      - apply F2_rev. eapply F2_filter; [|apply (R_table Name src src' HS)]. intros s s' Hs. now rewrite (KM_kind _ _ (SM_region _ _ _ _ _ Hs)).
      - eapply (F2_fold (Forall2 entM) entM); [apply F2_concat, Hes|intros; now apply M_insert|constructor]. }
    intros p p' [_ Hp]. pose proof (S_reverse _ _ Hp) as Hr. destruct Hp; cbn [ds_children]; [constructor|]. constructor; [exact Hr|constructor].
  Qed.

  (** ** Call hierarchy *)

  Notation SI := (SameItem Name src src').
  Notation STs := (SameTexts Name).
  Lemma T_param p p' : parM Name p p' -> STs (show_param p) (show_param p').
  Proof.
    intros [E O]. unfold show_param. rewrite <- E. apply STs_same. apply sts_app; [|apply sts_refl].
    destruct O; [constructor|]. apply STs_same. now apply sts_one.
  Qed.
  Lemma T_join l l' : Forall2 STs l l' -> STs (join_spaces l) (join_spaces l').
  Proof.
    induction 1 as [|x x' l l' Hx Hl IH]; [constructor|]. destruct Hl as [|y y' l l' Hy Hl]; cbn [join_spaces]; [exact Hx|].
    apply sts_app; [exact Hx|]. apply STs_same. exact IH.
  Qed.
  Lemma T_sig s s' : sigM Name s s' -> STs (show_sig s) (show_sig s').
  Proof.
    intros [P E]. unfold show_sig. rewrite <- E. apply T_join. apply Forall2_app.
    - eapply F2_map; [|exact P]. apply T_param.
    - apply F2_refl. apply sts_refl.
  Qed.
  Lemma A_header s s' : SymT s s' -> AnsR STs (render_func_header src tb s) (render_func_header src' tb' s').
  Proof.
    intros H. pose proof H as (HM & _). unfold render_func_header. rewrite <- (SM_kind _ _ _ _ _ HM).
    destruct (SM_idx _ _ _ _ _ HM) as [_ O].
    assert (Nm : STs (match s_kind s, i_name (s_idx s) with SFunc, Some x => T " " ++ x | _, _ => [] end)
                     (match s_kind s, i_name (s_idx s') with SFunc, Some x => T " " ++ x | _, _ => [] end)).
    { destruct (s_kind s); try constructor. destruct O; [constructor|]. apply STs_same. now apply sts_one. }
    destruct (A_get_func_sig Name HN src src' HS s s' H) as [| |sg sg' Hsg]; constructor.
    - apply STs_same. apply sts_app; [exact Nm|apply sts_refl].
    - apply STs_same. apply sts_app; [exact Nm|]. apply sts_app; [|apply sts_refl]. pose proof (T_sig _ _ Hsg) as HT. destruct Hsg as [P E].
      rewrite <- E. destruct P; [destruct (sig_results sg); [constructor|]|]; apply STs_same; exact HT.
  Qed.
  Lemma A_item s s' : SymT s s' -> AnsR SI (call_item_of src tb s) (call_item_of src' tb' s').
  Proof.
    intros H. pose proof H as (HM & _). unfold call_item_of. eapply AR_bind; [apply A_header, H|]. intros d d' Hd.
    eapply AR_bind; [apply A_key_range, HM|]. intros r r' Hr. eapply AR_bind; [apply (A_location Name src src'), H|]. intros x x' Hx. constructor.
    split; [apply A_symbol_name, HM|]. auto.
  Qed.

  (** Nodes are told apart by their ranges. *)
  Lemma range_key x p t s : InTree (tree_of x) p -> is_node p = true -> In t (children_with_tokens p) -> is_node t = false ->
    In s (symbols (the_table x)) -> s_kind s = SFunc \/ s_kind s = SCall ->
    key_is_range (s_key s) (estart p) (eend p) = key_eqb (s_key s) (key_of p).
  Proof.
    intros Tp Np Ht Nt Hs K. apply eq_true_iff_eq. split.
    - intros E. apply key_eqb_eq. destruct K as [K|K].
      + destruct (func_sym_out x s Hs K) as (m & k & f & F & ->). cbn [def_symbol s_key snd] in *.
        destruct (func_def_in x m k f F) as (Tf & Nf & _).
        rewrite (ThmPrepare.same_range x p t f); auto. left. destruct F as (_ & _ & _ & _ & S). apply func_kinds in S as [-> | ->]; reflexivity.
      + destruct (raw_ref_out x s Hs) as (n & a & w & e & Tn & Nn & A & W & En & ->); [unfold is_ref_kind; now rewrite K|].
        cbn [s_key] in *. rewrite (ThmPrepare.same_range x p t n); auto. right. destruct W as [u Hu|u y Hu Hf _].
        * apply token_some in Hu. exists u. tauto.
        * apply find_some in Hf as [Hf _]. exists u. unfold tokens in Hf. apply filter_In in Hf as [Hf1 Hf2].
          split; [exact Hf1|]. now apply negb_true_iff in Hf2.
    - intros E. apply key_eqb_eq in E. rewrite E. apply ThmPrepare.key_self.
  Qed.
  Lemma F2_find_map {A B C D} (P : A -> B -> Prop) (Q : C -> D -> Prop) f g l l' : Forall2 P l l' ->
    (forall x y, P x y -> OptR Q (f x) (g y)) -> OptR Q (find_map f l) (find_map g l').
  Proof. intros H Hf. induction H as [|x y l l' Hxy H IH]; cbn [find_map]; [constructor|]. destruct (Hf _ _ Hxy); [exact IH|now constructor]. Qed.

  Section Cursor.
  Variables (pos pos' : lsp_pos) (t t' : elem).
  Hypothesis (Hc : CursorOn src pos t) (Hc' : CursorOn src' pos' t') (Ht : R t t').
  Lemma cursor_child x ps u p : CursorOn x ps u -> parent u = Some p ->
    InTree (tree_of x) p /\ is_node p = true /\ In u (children_with_tokens p) /\ is_node u = false.
  Proof. intros C P. destruct (cursor_node _ _ _ _ C P) as (_ & Nt & Tf & Nf & Hu). auto. Qed.

  Lemma A_prepare_call : AnsR (Forall2 SI) (prepare_call_hierarchy src pos) (prepare_call_hierarchy src' pos').
  Proof.
    unfold prepare_call_hierarchy, cursor_token. rewrite Hc, Hc', !the_symbols_eq. cbn [abind].
    pose proof (RN_parent Name src src' _ _ Ht) as HP. destruct (parent t) as [p|] eqn:P, (parent t') as [p'|] eqn:P'; inversion HP; subst; [|constructor].
    cbn [aopt abind]. destruct (cursor_child _ _ _ _ Hc P) as (Tp & Np & Cp & Nt). destruct (cursor_child _ _ _ _ Hc' P') as (Tp' & Np' & Cp' & Nt').
    assert (G : OptR (AnsR (Forall2 SI)) (find_map (prepare_step src tb p) (symbols tb)) (find_map (prepare_step src' tb' p') (symbols tb'))).
    { eapply F2_find_map; [apply T_table|]. intros s s' Hs. pose proof Hs as (HM & I1 & I2). unfold prepare_step. rewrite <- (SM_kind _ _ _ _ _ HM).
      pose proof (KM_eqb _ _ _ _ (SM_key _ _ _ _ _ HM) (RN_key _ _ _ _ _ H1)) as EK.
      assert (EE : s_kind s = SFunc \/ s_kind s = SCall -> key_is_range (s_key s) (estart p) (eend p) = key_is_range (s_key s') (estart p') (eend p')).
      { intros K. rewrite (range_key src p t s), (range_key src' p' t' s'); auto. now rewrite <- (SM_kind _ _ _ _ _ HM). }
      destruct (s_kind s) eqn:K; try constructor.
      - rewrite <- EE by auto. destruct key_is_range; constructor. eapply AR_bind; [apply A_item, Hs|]. intros. constructor. constructor; [assumption|constructor].
      - rewrite <- EE by auto. destruct key_is_range; [|constructor].
        destruct (T_find_defs Name HN src src' HS _ _ (SM_key _ _ _ _ _ HM)); constructor. eapply AR_map; [apply A_item|assumption]. }
    destruct G as [|a a' Ha]; [constructor|exact Ha].
  Qed.

  Lemma A_prepare_rename : AnsR SameP (prepare_rename src pos) (prepare_rename src' pos').
  Proof.
    unfold prepare_rename, cursor_token. rewrite Hc, Hc'. cbn [abind]. rewrite <- (R_kind _ _ Ht). destruct kind_eqb; [now apply A_range|constructor].
  Qed.
  Lemma T_renamed p p' s s' u u' : parent t = Some p -> RN p p' -> SymT s s' -> SymT u u' -> ekind t = IDENT ->
    renamed tb (etext t) (key_of p) s u = renamed tb' (etext t') (key_of p') s' u'.
  Proof.
    intros HpP Hp (Hs & _) (Hu & _) Kt. unfold renamed. rewrite <- (SM_kind _ _ _ _ _ Hu).
    assert (EQ := SymT_eqb Name src src' s s' u u' Hs Hu).
    pose proof (RN_key _ _ _ _ _ Hp) as HK. pose proof (SM_key _ _ _ _ _ Hs) as Ks. pose proof (SM_key _ _ _ _ _ Hu) as Ku.
    assert (EB : forall a a' b b', KM a a' -> KM b b' ->
      existsb (fun t => match t with (rk, dk, _) => key_eqb a rk && key_eqb dk b end) (blocks tb)
      = existsb (fun t => match t with (rk, dk, _) => key_eqb a' rk && key_eqb dk b' end) (blocks tb')).
    { intros a a' b b' Ha Hb. eapply F2_existsb; [|apply (R_blocks Name src src' HS)]. intros [[x y] z] [[x' y'] z'] Hz.
      destruct Hz as (Hx & Hy & _). cbn in Hx, Hy. rewrite (KM_eqb _ _ _ _ Ha Hx), (KM_eqb _ _ _ _ Hy Hb). reflexivity. }
    assert (EN : key_eqb (s_region s) (s_region u) && match i_name (s_idx s) with Some x => text_eqb x (etext t) | None => false end
              = key_eqb (s_region s') (s_region u') && match i_name (s_idx s') with Some x => text_eqb x (etext t') | None => false end).
    { rewrite (KM_eqb _ _ _ _ (SM_region _ _ _ _ _ Hs) (SM_region _ _ _ _ _ Hu)). f_equal.
      destruct (SM_idx _ _ _ _ _ Hs) as [_ O]. destruct O; [reflexivity|]. apply HN; [assumption|].
      apply (R_name Name tree tree'); auto. apply (cursor_child _ _ _ _ Hc HpP). }
    destruct (s_kind u); auto.
    - rewrite EQ. f_equal. now apply EB.
    - rewrite EQ. rewrite (EB _ _ _ _ Ku Ks). f_equal.
      destruct (Q_find_block Name HN src src' HS _ _ HK) as [|d d' Hd]; [reflexivity|]. apply EB; [exact Ku|eapply SM_key; exact Hd].
  Qed.
  Definition RI (t t' : elem) : Prop := R t t' /\ is_node t = false /\ ekind t = IDENT.
  Lemma A_ident_range e e' : RI e e' -> AnsR (SameIdent src src') (range_of src e) (range_of src' e').
  Proof.
    intros (H & N & K). destruct (range_of_ok src e (R_in _ _ _ _ _ H)) as (r & -> & H1).
    destruct (range_of_ok src' e' (R_in' _ _ _ _ _ H)) as (r' & -> & H2). constructor. exists e, e'. split; [|auto].
    eapply R_counterpart, H.
  Qed.
  Lemma A_edit_token s s' : SymT s s' -> AnsR (Forall2 RI) (edit_token src s) (edit_token src' s').
  Proof.
    intros H. unfold edit_token. eapply AR_bind; [apply AR_must, (SymT_to_node Name src src'), H|]. intros n n' [Hn _]. constructor.
    pose proof (R_token IDENT _ _ eq_refl Hn) as HT.
    destruct (token n IDENT) as [x|] eqn:E, (token n' IDENT); inversion HT as [|? ? HX]; subst; constructor; [|constructor].
    apply token_some in E. split; [exact HX|]. tauto.
  Qed.
  Lemma A_rename_impl : ekind t = IDENT -> AnsR (Forall2 (SameIdent src src')) (rename_impl src t) (rename_impl src' t').
  Proof.
    intros K. unfold rename_impl. rewrite !the_symbols_eq. cbn [abind].
    pose proof (RN_parent Name src src' _ _ Ht) as HP. destruct (parent t) as [p|] eqn:P, (parent t') as [p'|] eqn:P'; inversion HP as [|? ? Hp]; subst; [|constructor].
    cbn [aopt abind]. eapply AR_bind; [apply AR_opt, (T_find_key Name src src' HS), RN_key, Hp|]. intros s s' Hs.
    eapply AR_bind; [eapply AR_map; [apply A_edit_token|]|].
    - eapply F2_filter; [|apply T_table]. intros u u' Hu. now apply T_renamed.
    - intros ts ts' Hts. eapply AR_map; [|apply F2_concat, Hts]. intros a b Hab. now apply A_ident_range.
  Qed.
  Lemma A_rename new new' : valid_name new = valid_name new' ->
    SameRename src src' new new' (rename src pos new) (rename src' pos' new').
  Proof.
    intros V. unfold rename, cursor_token. rewrite <- V, Hc, Hc'. destruct (valid_name new); [|constructor].
    rewrite <- (R_kind _ _ Ht). destruct (kind_eqb (ekind t) IDENT) eqn:K; [|constructor]. apply kind_eqb_eq in K.
    destruct (A_rename_impl K) as [| |l l' Hl]; constructor. eapply F2_map; [|exact Hl]. intros r r' Hr. cbn. auto.
  Qed.
  End Cursor.

  (** ** Calls *)

  Lemma func_at_eq x f r : InTree (tree_of x) f -> is_node f = true -> has_sort FuncS f = true -> RangeOf x f r ->
    func_at_range x (the_table x) r
    = aopt (find (fun s => skind_eqb (s_kind s) SFunc && key_eqb (s_key s) (key_of f)) (symbols (the_table x))).
  Proof.
    intros Tf Nf Sf [A B]. destruct r as [r1 r2]. cbn [fst snd] in *. unfold func_at_range. cbn [fst snd].
    unfold rowan_range. rewrite (line_col_inv _ _ _ A), (line_col_inv _ _ _ B). pose proof (in_tree_range x f Tf) as L.
    destruct (Nat.leb_spec (estart f) (eend f)); [|lia]. f_equal.
    assert (G : forall s, In s (symbols (the_table x)) -> skind_eqb (s_kind s) SFunc && key_is_range (s_key s) (estart f) (eend f)
      = skind_eqb (s_kind s) SFunc && key_eqb (s_key s) (key_of f)).
    { intros s Hs. destruct (skind_eqb (s_kind s) SFunc) eqn:K; [|reflexivity]. apply skind_eqb_eq in K. cbn [andb]. apply eq_true_iff_eq. split.
      - intros E. apply key_eqb_eq. destruct (func_sym_out x s Hs K) as (m & k & g & F & ->). cbn [def_symbol s_key snd] in *.
        unfold key_is_range in E. apply andb_prop in E as [E2 E3]. apply Nat.eqb_eq in E2, E3.
        change (key_start (key_of g)) with (estart g) in E2. change (key_end (key_of g)) with (eend g) in E3. f_equal.
        destruct (func_def_in x m k g F) as (Tg & Ng & _ & _ & _ & _ & _ & K1 & K2).
        assert (Rk : Unique.rank (ekind g) = Unique.rank (ekind f)).
        { destruct F as (_ & _ & _ & _ & S). apply func_kinds in S, Sf. destruct S as [->| ->], Sf as [->| ->]; reflexivity. }
        assert (Gl : glen (el g) = glen (el f)) by (unfold estart, eend in *; lia).
        pose proof (node_nonempty x g Tg Ng K1 K2) as Lg.
        destruct (nested_or_apart (tree_of x) g f Tg Tf) as [D|[D|D]].
        + destruct (Desc_depth _ _ D) as [E|E]; [exact E|exfalso]. assert (E' : g <> f) by (intros ->; lia).
          pose proof (desc_rank _ _ _ _ (parse_of x) g f Tg D Nf E' Gl). lia.
        + destruct (Desc_depth _ _ D) as [E|E]; [now symmetry|exfalso]. assert (E' : f <> g) by (intros ->; lia).
          pose proof (desc_rank _ _ _ _ (parse_of x) f g Tf D Ng E' (eq_sym Gl)). lia.
        + lia.
      - intros E. apply key_eqb_eq in E. rewrite E. apply ThmPrepare.key_self. }
    revert G. generalize (symbols (the_table x)). induction l as [|a l IH]; intros G; [reflexivity|]. cbn [find].
    rewrite (G a (or_introl eq_refl)). destruct (_ && _); [reflexivity|]. apply IH. intros; apply G; now right.
  Qed.
  Lemma func_at_same f f' r r' : R f f' -> is_node f = true -> has_sort FuncS f = true -> RangeOf src f r -> RangeOf src' f' r' ->
    AnsR SymT (func_at_range src tb r) (func_at_range src' tb' r').
  Proof.
    intros Hf Nf Sf Hr Hr'. rewrite (func_at_eq src f r), (func_at_eq src' f' r'); auto.
    - apply AR_opt. eapply F2_find; [|apply T_table]. intros u u' (Hu & _). rewrite <- (SM_kind _ _ _ _ _ Hu). f_equal.
      apply KM_eqb; [eapply SM_key; exact Hu|]. apply RN_key. split; assumption.
    - apply Hf.
    - now rewrite <- (R_is_node Name tree tree' _ _ Hf).
    - unfold has_sort, def_sort in *. now rewrite <- (R_kind _ _ Hf).
    - apply Hf.
  Qed.
  Lemma A_incoming_of s s' c c' : SymT s s' -> SymT c c' ->
    AnsR (Forall2 (SameCall Name src src')) (incoming_of src tb s c) (incoming_of src' tb' s' c').
  Proof.
    intros (Hs & _) HcT. pose proof HcT as (Hcm & _). unfold incoming_of. rewrite <- (SM_kind _ _ _ _ _ Hcm).
    rewrite <- (idxM_def Name HN _ _ _ _ (SM_idx _ _ _ _ _ Hcm) (SM_idx _ _ _ _ _ Hs)).
    rewrite <- (KM_eqb _ _ _ _ (SM_region _ _ _ _ _ Hs) (SM_region _ _ _ _ _ Hcm)).
    destruct (_ && _); [|apply A_nil]. eapply AR_bind; [apply AR_must, (SymT_to_node Name src src'), HcT|]. intros n n' Hn.
    destruct (R_enclosing Name src src' [MODULE_FIELD_FUNC] _ _ Hn) as [|f f' Hf]; [apply A_nil|].
    assert (F : OptR SymT (find (fun s => skind_eqb (s_kind s) SFunc && key_eqb (s_key s) (key_of f)) (symbols tb))
      (find (fun s => skind_eqb (s_kind s) SFunc && key_eqb (s_key s) (key_of f')) (symbols tb'))).
    { eapply F2_find; [|apply T_table]. intros u u' (Hu & _). rewrite <- (SM_kind _ _ _ _ _ Hu). f_equal.
      apply KM_eqb; [eapply SM_key; exact Hu|now apply RN_key]. }
    destruct F as [|fs fs' Hfs]; [apply A_nil|].
    eapply AR_bind with (P := Forall2 SameP).
    - destruct (RN_parent Name src src' _ _ (proj1 Hn)) as [|p p' [Hp _]]; [apply A_nil|].
      eapply AR_bind; [apply A_range, Hp|]. intros. constructor. constructor; [assumption|constructor].
    - intros rs rs' Hrs. eapply AR_bind; [apply A_item, Hfs|]. intros i i' Hi. constructor. constructor; [|constructor]. split; assumption.
  Qed.
  Lemma A_incoming f f' r r' : R f f' -> is_node f = true -> has_sort FuncS f = true -> RangeOf src f r -> RangeOf src' f' r' ->
    AnsR (Forall2 (SameCall Name src src')) (incoming_calls src r) (incoming_calls src' r').
  Proof.
    intros Hf Nf Sf Hr Hr'. unfold incoming_calls. rewrite !the_symbols_eq. cbn [abind].
    eapply AR_bind; [eapply func_at_same; eassumption|]. intros s s' Hs. apply A_concat. eapply AR_map; [|apply T_table].
    intros c c' HcT. now apply A_incoming_of.
  Qed.
  Lemma is_call_scwt e : is_call e
    = existsb (fun t => negb (is_node t) && kind_eqb (ekind t) INSTR_NAME && name_in (etext t) call_names) (scwt e).
  Proof.
    unfold is_call, scwt. induction (children_with_tokens e) as [|c l IH]; [reflexivity|]. cbn [filter existsb]. rewrite IH.
    destruct (sigE c) eqn:S; [reflexivity|]. replace (negb _ && _ && _) with false; [reflexivity|].
    unfold sigE, is_node, ekind in *. destruct (el c) as [k u|]; [|discriminate]. destruct k; try reflexivity; discriminate.
  Qed.
  Lemma R_is_call e e' : R e e' -> is_call e = is_call e'.
  Proof.
    intros H. rewrite !is_call_scwt. eapply F2_existsb; [|apply (R_kids Name tree tree'), H]. intros c c' Hcc.
    rewrite <- (R_is_node Name tree tree' _ _ Hcc), <- (R_kind _ _ Hcc). destruct (is_node c) eqn:N; [reflexivity|].
    destruct (kind_eqb (ekind c) INSTR_NAME) eqn:K; [|reflexivity]. apply kind_eqb_eq in K. cbn [negb andb].
    rewrite (R_text Name tree tree' _ _ Hcc N); [reflexivity|]. rewrite K. discriminate.
  Qed.
  Lemma A_outgoing_of e e' : RN e e' -> AnsR (Forall2 (SameCall Name src src')) (outgoing_of src tb e) (outgoing_of src' tb' e').
  Proof.
    intros [He Ne]. unfold outgoing_of. rewrite <- (R_kind _ _ He), <- (R_is_call _ _ He). destruct (_ && _); [|apply A_nil].
    eapply AR_bind; [apply A_range, He|]. intros r r' Hr. eapply AR_map with (P := SymT).
    - intros s s' Hs. eapply AR_bind; [apply A_item, Hs|]. intros. constructor. split; [assumption|]. constructor; [assumption|constructor].
    - eapply F2_filter; [intros s s' (Hs & _); now rewrite (SM_kind _ _ _ _ _ Hs)|].
      eapply F2_flat_map; [|apply (RN_childs Name src src'), He]. intros o o' Ho.
      destruct (T_find_defs Name HN src src' HS _ _ (RN_key _ _ _ _ _ Ho)); [constructor|assumption].
  Qed.
  Lemma A_outgoing f f' r r' : R f f' -> is_node f = true -> has_sort FuncS f = true -> RangeOf src f r -> RangeOf src' f' r' ->
    AnsR (Forall2 (SameCall Name src src')) (outgoing_calls src r) (outgoing_calls src' r').
  Proof.
    intros Hf Nf Sf Hr Hr'. unfold outgoing_calls. rewrite !the_symbols_eq. cbn [abind].
    eapply AR_bind; [eapply func_at_same; eassumption|]. intros s s' Hs.
    eapply AR_bind; [apply AR_must, (SymT_to_node Name src src'), Hs|]. intros n n' Hn. apply A_concat. eapply AR_map; [apply A_outgoing_of|].
    apply (F2_imp (fun a b => R a b /\ is_node a = true /\ True)); [intros a b (A & B & _); split; auto|].
    destruct Hn as [Hn Nn]. apply F2_in_and; [|intros a Ha; now apply filter_In in Ha|auto]. now apply R_descendants.
  Qed.

  (** ** Inlay hints *)

  Notation SH := (SameHint Name src src').
  Lemma A_pos e e' : R e e' ->
    AnsR (fun p p' => exists r r', SameP r r' /\ p = snd r /\ p' = snd r') (pos_at src (eend e)) (pos_at src' (eend e')).
  Proof.
    intros H. destruct (range_of_ok src e (R_in _ _ _ _ _ H)) as (r & _ & Hr). destruct (range_of_ok src' e' (R_in' _ _ _ _ _ H)) as (r' & _ & Hr').
    unfold pos_at. rewrite (proj2 Hr), (proj2 Hr'). constructor. exists r, r'. repeat split. exists e, e'. split; [|auto].
    eapply R_counterpart, H.
  Qed.
  Lemma A_type_hint s s' o : SymT s s' -> AnsR (Forall2 SH) (type_hint src s o) (type_hint src' s' o).
  Proof.
    intros H. unfold type_hint. destruct o as [v|]; [|apply A_nil].
    destruct (SymT_node Name src src' s s' H) as (n & n' & [Hn _] & -> & -> & _).
    eapply AR_bind; [apply (A_pos n n'), Hn|]. intros p p' Hp. constructor. constructor; [|constructor]. split; [exact Hp|apply sts_refl].
  Qed.
  Hypothesis Hends : forall e g, InTree tree e -> ekind e <> ROOT -> hd_error (rev (gchildren (el e))) = Some g -> significant g = true.
  Hypothesis Hends' : forall e g, InTree tree' e -> ekind e <> ROOT -> hd_error (rev (gchildren (el e))) = Some g -> significant g = true.
  Lemma hd_last {A} (f : A -> bool) l : (forall x, hd_error (rev l) = Some x -> f x = true) ->
    hd_error (rev (filter f l)) = hd_error (rev l).
  Proof.
    destruct l as [|a l] using rev_ind; [reflexivity|]. intros H. rewrite filter_app, !rev_app_distr. cbn [filter].
    rewrite (H a); [reflexivity|]. now rewrite rev_app_distr.
  Qed.
  Lemma last_sig t0 e : (forall g, hd_error (rev (gchildren (el e))) = Some g -> significant g = true) -> InTree t0 e ->
    hd_error (rev (children_with_tokens e)) = hd_error (rev (scwt e)).
  Proof.
    intros H _. symmetry. apply hd_last. intros x Hx. apply H.
    assert (E : map el (children_with_tokens e) = gchildren (el e)) by apply SigFacts.greens_all.
    rewrite <- E, <- map_rev. destruct (rev (children_with_tokens e)); [discriminate|]. cbn in *. congruence.
  Qed.
  Lemma R_last e e' : R e e' -> ekind e <> ROOT -> OptR R (hd_error (rev (children_with_tokens e))) (hd_error (rev (children_with_tokens e'))).
  Proof.
    intros H K. rewrite (last_sig tree e), (last_sig tree' e'); [|..].
    - apply F2_hd, F2_rev, R_kids, H.
    - intros g. apply Hends'; [apply H|]. now rewrite <- (R_kind _ _ H).
    - apply H.
    - intros g. apply Hends; [apply H|exact K].
    - apply H.
  Qed.
  Lemma within_root x e : InTree (tree_of x) e -> within 0 (glen (tree_of x)) (estart e) (eend e) = true.
  Proof.
    intros H. apply Desc_range in H. unfold within, estart, eend in *. cbn [root_of el off] in H.
    apply andb_true_intro. split; apply Nat.leb_le; lia.
  Qed.
  Lemma A_hint s s' : SymT s s' ->
    AnsR (Forall2 SH) (hint_of src tb 0 (glen tree) s) (hint_of src' tb' 0 (glen tree') s').
  Proof.
    intros H. pose proof H as (HM & I1 & I2). unfold hint_of. rewrite <- (SM_kind _ _ _ _ _ HM).
    destruct (SymT_node Name src src' s s' H) as (n & n' & Hn & E & E' & N1 & N2).
    assert (W : within 0 (glen tree) (key_start (s_key s)) (key_end (s_key s)) = true) by (rewrite E; apply within_root, Hn).
    assert (W' : within 0 (glen tree') (key_start (s_key s')) (key_end (s_key s')) = true) by (rewrite E'; apply within_root, Hn).
    destruct (s_kind s) eqn:K; try apply A_nil.
    - rewrite N1, N2. cbn [amust abind].
      assert (Kn : ekind n <> ROOT).
      { destruct (func_sym_out src s I1 K) as (m & k & f & F & Es). rewrite Es in E. cbn [def_symbol s_key snd] in E.
        intros X. assert (Y : ekind f = ROOT) by (apply (f_equal key_kind) in E; cbn in E; congruence).
        destruct F as (_ & _ & _ & _ & S). apply func_kinds in S. destruct S; congruence. }
      destruct (R_last _ _ (proj1 Hn) Kn) as [|l l' Hl]; [apply A_nil|].
      destruct (SM_idx _ _ _ _ _ HM) as [_ O]. destruct O as [|x x' Hx]; [apply A_nil|].
      rewrite (within_root src l), (within_root src' l') by apply Hl.
      eapply AR_bind; [apply A_pos, Hl|]. intros p p' Hp. constructor. constructor; [|constructor]. split; [exact Hp|].
      cbn [snd]. apply STs_same. apply STs_name; [exact Hx|apply sts_refl].
    - rewrite W, W'. destruct (T_find_local Name HN src src' HS _ _ (SM_key _ _ _ _ _ HM)) as [|d d' (Hd & _)]; [apply A_nil|].
      rewrite (G_extract _ _ _ (SM_green _ _ _ _ _ Hd)). now apply A_type_hint.
    - rewrite W, W'. destruct (T_find_defs Name HN src src' HS _ _ (SM_key _ _ _ _ _ HM)) as [|ds ds' Hds]; [apply A_nil|].
      destruct Hds as [|d d' ds ds' (Hd & _) _]; [apply A_nil|]. rewrite (G_global _ _ _ (SM_green _ _ _ _ _ Hd)). now apply A_type_hint.
  Qed.
  Lemma whole_range x r : RangeOf x (root_of (tree_of x)) r -> rowan_range (new_line_index x) (fst r) (snd r) = RangeOk 0 (glen (tree_of x)).
  Proof.
    intros [A B]. unfold rowan_range. rewrite (line_col_inv _ _ _ A), (line_col_inv _ _ _ B). reflexivity.
  Qed.
  Lemma A_inlay r r' : RangeOf src (root_of tree) r -> RangeOf src' (root_of tree') r' ->
    AnsR (Forall2 SH) (inlay_hint src r) (inlay_hint src' r').
  Proof.
    intros Hr Hr'. apply whole_range in Hr, Hr'. unfold inlay_hint. destruct r, r'. cbn [fst snd] in *. rewrite Hr, Hr', !the_symbols_eq. cbn [abind].
    apply A_concat. eapply AR_map; [apply A_hint|apply T_table].
  Qed.
End Alike.
