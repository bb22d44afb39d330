(** Hover of documents that are alike (C54, C55). *)

From Coq Require Import String List NArith Bool Arith Lia.
From Verif Require Import Text Kind Green SpecParser SpecSyntax Lexer LexerFacts Winnow Grammar Sem Lossless Total
  Bounds Lang TokForm Shape ThmParser Red Unique LineIndex ThmTree Cursor ThmPos Doc Ast Binder Preorder SpecBinder BinderFacts
  BinderDefs Blocks Nav NavSpec NavFacts ThmNav RefFacts InstrMeta Types Check CheckFacts SemTok Hover SpecAlike SpecAlikeMore SpecAlikeHover
  Alike AlikeNav AlikeCheck AlikeMore.
From Verif Require SigFacts ThmCalls.
Import ListNotations.

Section Alike.
  Variable Name : text -> text -> Prop.
  Hypothesis HN : forall x x' y y', Name x x' -> Name y y' -> text_eqb x y = text_eqb x' y'.
  Variable src src' : text.
  Notation tree := (tree_of src).
  Notation tree' := (tree_of src').
  Hypothesis HS : Sim Name tree tree'.
  Notation R := (R Name tree tree').
  Notation RN := (RN Name src src').
  Notation KM := (KM Name src src').
  Notation SymM := (SymM Name src src').
  Notation SymT := (SymT Name src src').
  Notation tb := (the_table src).
  Notation tb' := (the_table src').
  Notation STs := (SameTexts Name).
  Notation SC := (SameContents Name).
  Hypothesis HD : forall d d', RN d d' -> has_sort FuncS d = true -> doc_of d = doc_of d'.

  Lemma A_opt_name s s' : SymM s s' -> STs (opt_name s) (opt_name s').
  Proof.
    intros H. destruct (SM_idx _ _ _ _ _ H) as [_ O]. unfold opt_name. destruct O; [constructor|]. apply STs_same. now apply sts_one.
  Qed.
  Lemma func_node s n : In s (symbols tb) -> s_kind s = SFunc -> to_node tree (s_key s) = Some n -> has_sort FuncS n = true.
  Proof.
    intros Hs K Hn. destruct (ThmCalls.func_sym_out src s Hs K) as (m & k & f & F & ->). cbn [def_symbol s_key snd] in Hn.
    destruct (ThmCalls.func_def_in src m k f F) as (Tf & Nf & _ & _ & _ & (P1 & P2 & P3 & P4)).
    rewrite to_node_ok in Hn by auto. injection Hn as <-. apply F.
  Qed.
  (** Never empty. *)
  Definition Block (x x' : text) : Prop := STs x x' /\ x <> [] /\ x' <> [].
  Lemma A_func s s' : SymT s s' -> s_kind s = SFunc -> AnsR Block (func_hover src tb s) (func_hover src' tb' s').
  Proof.
    intros H K. unfold func_hover. pose proof (SymT_to_node Name src src' s s' H) as Hn.
    destruct (to_node tree (s_key s)) as [n|] eqn:E; [|inversion Hn; cbn [amust abind]; constructor].
    inversion Hn as [|? n' Hnn' E1 E2]; subst. cbn [amust abind].
    eapply AR_bind; [exact (A_header Name HN src src' HS _ _ H)|]. intros h h' Hh. constructor.
    rewrite <- (HD _ _ Hnn') by (destruct H as (_ & Hs & _); eapply func_node; eauto).
    split; [|split; unfold code; discriminate].
    apply sts_app; [|apply sts_refl]. unfold code. apply STs_same, STs_same. apply sts_app; [exact Hh|apply sts_refl].
  Qed.
  Lemma A_slot s s' : SymM s s' -> STs (slot_hover s) (slot_hover s').
  Proof.
    intros H. unfold slot_hover. rewrite <- (SM_kind _ _ _ _ _ H), <- (G_extract Name _ _ (SM_green _ _ _ _ _ H)).
    apply STs_same. apply sts_app; [|apply sts_refl].
    destruct (s_kind s); first [exact (STs_nil Name)|apply STs_same; now apply A_opt_name].
  Qed.
  Lemma A_valtype_text v v' : RN v v' -> ekind v = VAL_TYPE -> etext v = etext v'.
  Proof.
    intros [H N] K. pose proof (R_kind Name _ _ _ _ H) as K'. pose proof (R_is_node Name _ _ _ _ H) as N'. rewrite K in K'. rewrite N in N'.
    destruct (SigFacts.valtype_green src v) as (t & E & ->); auto; [apply tree_part, H|].
    destruct (SigFacts.valtype_green src' v') as (t' & E' & ->); auto; [apply tree_part, H|].
    rewrite (G_valtype Name (el v) (el v')) in E by apply H. congruence.
  Qed.
  Lemma A_global s s' : SymT s s' -> AnsR STs (global_hover src s) (global_hover src' s').
  Proof.
    intros H. unfold global_hover. eapply AR_bind; [apply AR_must, (SymT_to_node Name src src'), H|]. intros n n' [Hn _]. constructor.
    destruct H as (HM & _). rewrite <- (SM_kind _ _ _ _ _ HM). apply STs_same. apply sts_app.
    - destruct (skind_eqb _ _); [|constructor]. apply STs_same. now apply A_opt_name.
    - apply sts_app; [|apply sts_refl]. destruct (RN_child Name src src' GLOBAL_TYPE _ _ Hn) as [|g g' [Hg _]]; [constructor|].
      assert (is_some (token g KEYWORD) = is_some (token g' KEYWORD)) as <-.
      { pose proof (R_token Name tree tree' KEYWORD _ _ eq_refl Hg) as X. now destruct X. }
      apply STs_same. apply sts_app; [|apply sts_refl].
      pose proof (RN_child Name src src' VAL_TYPE _ _ Hg) as HV.
      destruct (child g VAL_TYPE) as [v|] eqn:E; inversion HV as [|? v' Hv]; subst; [|constructor].
      rewrite (A_valtype_text _ _ Hv); [apply sts_refl|]. unfold child in E. apply find_some in E as [_ E]. apply kind_eqb_eq in E. exact E.
  Qed.
  Lemma A_type s s' : SymM s s' -> AnsR STs (type_hover s) (type_hover s').
  Proof.
    intros H. unfold type_hover. rewrite <- (SM_kind _ _ _ _ _ H).
    assert (Nm : STs (if skind_eqb (s_kind s) SType then opt_name s else []) (if skind_eqb (s_kind s) SType then opt_name s' else [])).
    { destruct (skind_eqb _ _); [now apply A_opt_name|constructor]. }
    pose proof (G_child Name FUNC_TYPE _ _ (SM_green _ _ _ _ _ H)) as HG. unfold find_func_type_of_type_def.
    destruct HG as [|g g' Hg]; [constructor; apply STs_same, sts_app; [exact Nm|apply sts_refl]|].
    eapply AR_bind; [apply (G_sig Name _ _ Hg)|]. intros sg sg' Hsg. constructor. apply STs_same, sts_app; [exact Nm|]. apply STs_same.
    apply sts_app; [|apply sts_refl]. pose proof (T_sig Name _ _ Hsg) as X. destruct Hsg as [P E]. rewrite <- E.
    destruct P; [destruct (sig_results sg)|]; first [exact (STs_nil Name)|apply STs_same; exact X].
  Qed.
  Lemma A_def s s' : SymT s s' -> AnsR SC (def_hover src tb s) (def_hover src' tb' s').
  Proof.
    intros H. pose proof H as (HM & _). unfold def_hover. rewrite <- (SM_kind _ _ _ _ _ HM).
    destruct (s_kind s) eqn:K; try constructor; try (constructor; now apply A_slot).
    - eapply AR_bind; [apply A_func; auto|]. intros x x' (Hx & _). now repeat constructor.
    - eapply AR_bind; [apply A_type; auto|]. intros x x' Hx. now repeat constructor.
    - eapply AR_bind; [apply A_global; auto|]. intros x x' Hx. now repeat constructor.
  Qed.
  Lemma A_joined l l' : Forall2 Block l l' -> forall a a', (a = [] /\ a' = []) \/ Block a a' -> STs (joined a l) (joined a' l').
  Proof.
    induction 1 as [|x x' l l' Hx Hl IH]; intros a a' Ha; cbn [joined].
    - destruct Ha as [[-> ->]|[H _]]; [constructor|exact H].
    - apply IH. right. destruct Ha as [[-> ->]|(Ha & N & N')]; [exact Hx|].
      destruct a as [|c a]; [congruence|]. destruct a' as [|c' a']; [congruence|].
      split; [|split; discriminate]. apply sts_app; [exact Ha|]. apply STs_same. apply Hx.
  Qed.
  Lemma call_defs k s ds : find_key tb k = Some s -> s_kind s = SCall -> find_defs tb (s_key s) = Some ds ->
    forall d, In d ds -> s_kind d = SFunc.
  Proof.
    intros F K. assert (s_key s = k) as ->. { unfold find_key in F. apply find_some in F as [_ F]. now apply key_eqb_eq in F. }
    unfold find_defs. rewrite F, K. cbn [def_kind]. intros H. injection H as <-. intros d Hd. apply filter_In in Hd as [_ Hd].
    apply andb_prop in Hd as [Hd _]. apply andb_prop in Hd as [_ Hd]. now apply skind_eqb_eq in Hd.
  Qed.
  Lemma A_ref k s s' : find_key tb k = Some s -> SymT s s' -> AnsR SC (ref_hover src tb s) (ref_hover src' tb' s').
  Proof.
    intros F H. pose proof H as (HM & _). unfold ref_hover. rewrite <- (SM_kind _ _ _ _ _ HM).
    pose proof (T_find_defs Name HN src src' HS _ _ (SM_key _ _ _ _ _ HM)) as HF.
    destruct (s_kind s) eqn:K; try constructor.
    all: destruct (find_defs tb (s_key s)) as [ds|] eqn:E; inversion HF as [|? ds' Hds]; subst; [|constructor].
    all: eapply AR_bind.
    1: { eapply AR_map; [|eapply F2_in_and with (P := fun d => s_kind d = SFunc) (Q := fun _ => True); [exact Hds| |auto]].
         - intros d d' (Hd & Kd & _). now apply A_func.
         - intros d Hd. eapply call_defs; eauto. }
    2: { eapply AR_map; [|exact Hds]. intros d d' (Hd & _). now apply A_type. }
    3: { eapply AR_map; [|exact Hds]. intros d d' Hd. now apply A_global. }
    all: intros l l' Hl; constructor; constructor; auto.
    apply A_joined; auto.
  Qed.
  Lemma A_key k k' : KM k k' -> AnsR SC (key_hover src tb k) (key_hover src' tb' k').
  Proof.
    intros H. unfold key_hover. destruct (T_find_local Name HN src src' HS _ _ H) as [|d d' Hd].
    - pose proof (T_find_key Name src src' HS _ _ H) as HF.
      destruct (find_key tb k) as [s|] eqn:F; inversion HF as [|? s' Hs]; subst; cbn [aopt abind]; [|constructor].
      destruct (A_ref k s s' F Hs); [now apply A_def|constructor|now constructor].
    - constructor. constructor. apply A_slot, Hd.
  Qed.
  Lemma A_token t t' : R t t' -> is_node t = false -> AnsR SC (token_hover src t) (token_hover src' t').
  Proof.
    intros H N. unfold token_hover. rewrite <- (R_kind Name _ _ _ _ H), !the_symbols_eq. cbn [abind].
    assert (E : ekind t <> IDENT -> etext t = etext t') by (intros K; now apply (R_text Name tree tree')).
    assert (P : OptR RN (parent t) (parent t')) by now apply RN_parent.
    destruct (ekind t) eqn:K; try (constructor; fail).
    all: try (rewrite <- E by discriminate).
    all: try (destruct P as [|p p' Hp]; cbn [aopt abind]; [constructor|]; apply A_key, RN_key; exact Hp).
    all: try (destruct (value_type_doc (etext t)); cbn [aopt abind]; constructor; constructor; apply sts_refl).
    - destruct P as [|p p' Hp]; cbn [aopt abind]; [constructor|].
      destruct (T_find_key Name src src' HS _ _ (RN_key _ _ _ _ _ Hp)) as [|s s' Hs]; cbn [aopt abind]; [constructor|now apply A_def].
    - destruct (meta_of (etext t)); cbn [aopt abind]; constructor; constructor; apply sts_refl.
  Qed.
  Lemma A_hover pos pos' t t' : CursorOn src pos t -> CursorOn src' pos' t' -> R t t' -> is_node t = false ->
    AnsR (SameHover Name src src') (hover src pos) (hover src' pos').
  Proof.
    intros Hc Hc' Ht N. unfold hover, cursor_token. rewrite Hc, Hc'. cbn [abind]. eapply AR_bind; [now apply A_token|]. intros c c' Hcc.
    eapply AR_bind; [apply (A_range Name src src'), Ht|]. intros r r' Hr. constructor. now split.
  Qed.
End Alike.
