(** Semantic tokens and selection ranges of documents that are alike (C54,
    C55). *)

From Coq Require Import String List NArith ZArith Bool Arith Lia.
From Verif Require Import Text Kind Green SpecParser SpecSyntax Lexer LexerFacts Winnow Grammar Sem Lossless Total
  Bounds Lang TokForm Shape ThmParser Red Unique LineIndex ThmTree Cursor ThmPos Doc Ast Binder Preorder SpecBinder BinderFacts
  BinderDefs Blocks Nav NavSpec NavFacts ThmNav RefFacts Types Check CheckFacts Features SemTok SpecSemTok ThmSemTok SpecAlike SpecAlikeMore SpecAlikeTok Alike AlikeNav AlikeMore.
Import ListNotations.

Section Alike.
  Variable Name : text -> text -> Prop.
  Hypothesis HN : forall x x' y y', Name x x' -> Name y y' -> text_eqb x y = text_eqb x' y'.
  Variable src src' : text.
  Notation tree := (tree_of src).
  Notation tree' := (tree_of src').
  Hypothesis HS : Sim Name tree tree'.
  Notation R := (R Name tree tree').
  Notation RN := (RN Name src src').
  Notation KM := (KM Name src src').
  Notation SymM := (SymM Name src src').
  Notation R_kind := (Alike.R_kind Name tree tree').
  Notation R_is_node := (Alike.R_is_node Name tree tree').
  Notation tb := (the_table src).
  Notation tb' := (the_table src').
  Notation SameP := (SamePlace src src').

  (** ** All tokens but white space and comments *)

  Lemma dwt_step e : is_node e = true ->
    descendants_with_tokens e = e :: flat_map descendants_with_tokens (children_with_tokens e).
  Proof.
    intros Hn. destruct e as [[k t|k cs] o us]; [discriminate|]. rewrite descendants_node. f_equal. now rewrite <- flat_map_concat_map.
  Qed.
  Lemma dwt_tok e : is_node e = false -> descendants_with_tokens e = [e].
  Proof. intros Hn. destruct e as [[k t|k cs] o us]; [reflexivity|discriminate]. Qed.
  Definition words_of (e : elem) : list elem := filter (fun x => sigE x && negb (is_node x)) (descendants_with_tokens e).
  Lemma words_step e : is_node e = true -> words_of e = flat_map words_of (scwt e).
  Proof.
    intros Hn. unfold words_of at 1. rewrite dwt_step by exact Hn. cbn [filter]. rewrite Hn, andb_false_r. unfold scwt.
    induction (children_with_tokens e) as [|c l IH]; [reflexivity|]. cbn [flat_map filter]. rewrite filter_app, IH. fold (words_of c).
    destruct (sigE c) eqn:S; [reflexivity|]. unfold words_of at 1. rewrite dwt_tok by (destruct (is_node c) eqn:N; [apply node_sig in N; congruence|reflexivity]).
    cbn [filter]. now rewrite S.
  Qed.
  Lemma R_words : forall e e', R e e' -> Forall2 R (words_of e) (words_of e').
  Proof.
    assert (H : forall n e e', gdepth (el e) < n -> R e e' -> Forall2 R (words_of e) (words_of e')).
    { induction n as [|n IH]; intros e e' Hd H; [lia|]. destruct (is_node e) eqn:Hn.
      - rewrite (words_step e) by exact Hn. rewrite (words_step e') by (rewrite <- (R_is_node _ _ H); exact Hn).
        pose proof (R_kids Name tree tree' _ _ H) as HF.
        apply (F2_in_and _ (fun c => In c (scwt e)) (fun _ => True)) in HF; auto.
        eapply F2_flat_map; [|exact HF]. intros c c' (Hc & Hin & _). apply IH; [|exact Hc].
        apply filter_In in Hin as [Hin _]. apply child_in in Hin as (l & g & r & G & ->). cbn [el].
        destruct (el e) as [|k cs]; cbn [gchildren] in G; [destruct l; discriminate G|]. subst cs.
        cbn [gdepth] in Hd. rewrite map_app, list_max_app in Hd. cbn [map] in Hd.
        change (list_max (gdepth g :: map gdepth r)) with (Nat.max (gdepth g) (list_max (map gdepth r))) in Hd. lia.
      - unfold words_of. rewrite (dwt_tok e) by exact Hn. rewrite (dwt_tok e') by (rewrite <- (R_is_node _ _ H); exact Hn). cbn [filter].
        destruct (Alike.R_sig Name tree tree' _ _ H) as [-> ->]. rewrite <- (R_is_node _ _ H), Hn. cbn [negb andb]. constructor; [exact H|constructor]. }
    intros e e'. apply (H (S (gdepth (el e)))). lia.
  Qed.
  Lemma words_all x : filter sigE (all_tokens x) = words_of (root_of (tree_of x)).
  Proof.
    unfold all_tokens, words_of. induction (descendants_with_tokens _) as [|e l IH]; [reflexivity|]. cbn [filter].
    destruct (is_node e), (sigE e) eqn:S; cbn [negb andb filter]; rewrite ?S, IH; reflexivity.
  Qed.

  (** ** Their classes *)

  Lemma Q_find_param k k' : KM k k' -> OptR SymM (find_param_def tb k) (find_param_def tb' k').
  Proof.
    intros H. unfold find_param_def, find_local_ref. destruct (Q_kind_key Name src src' HS SLocalRef _ _ H) as [|l l' Hl]; [constructor|].
    apply F2_find; [|now apply R_table]. intros s s' Hs.
    rewrite (KM_eqb Name src src' _ _ _ _ (SM_region _ _ _ _ _ Hs) (SM_region _ _ _ _ _ Hl)), (SM_kind _ _ _ _ _ Hs).
    now rewrite (idxM_def Name HN _ _ _ _ (SM_idx _ _ _ _ _ Hl) (SM_idx _ _ _ _ _ Hs)).
  Qed.
  Lemma R_grand t t' : R t t' -> OptR RN (grand t) (grand t').
  Proof.
    intros H. unfold grand. destruct (RN_parent Name src src' _ _ H) as [|p p' Hp]; [constructor|]. apply RN_parent. apply Hp.
  Qed.
  Lemma OR_test {A B} (P : A -> B -> Prop) f g : (forall a b, P a b -> f a = g b) -> forall o o', OptR P o o' -> opt_test f o = opt_test g o'.
  Proof. intros H o o' []; cbn; auto. Qed.
  Lemma R_class t t' : R t t' -> token_class tb t = token_class tb' t'.
  Proof.
    intros H. unfold token_class. rewrite <- (R_kind _ _ H).
    assert (F : opt_test is_func_place (grand t) = opt_test is_func_place (grand t')).
    { apply (OR_test RN); [|now apply R_grand]. intros a b [Hab _]. unfold is_func_place. now rewrite (R_is_call Name src src' _ _ Hab), (R_kind _ _ Hab). }
    assert (L : opt_test is_local_instr (grand t) = opt_test is_local_instr (grand t')).
    { apply (OR_test RN); [|now apply R_grand]. intros a b [Hab _]. unfold is_local_instr.
      pose proof (R_token_text Name src src' a b INSTR_NAME eq_refl ltac:(discriminate) Hab) as E.
      destruct (token a INSTR_NAME), (token b INSTR_NAME); cbn in E; try discriminate; [|reflexivity]. injection E as ->. reflexivity. }
    assert (P : forall p p', RN p p' -> is_some (find_param_def tb (key_of p)) = is_some (find_param_def tb' (key_of p'))).
    { intros p p' Hp. pose proof (Q_find_param _ _ (RN_key _ _ _ _ _ Hp)) as X. now destruct X. }
    rewrite <- F, <- L. pose proof (RN_parent Name src src' _ _ H) as HP.
    destruct HP as [|p p' Hp]; [reflexivity|]. cbn [opt_test]. rewrite <- (P _ _ Hp), <- (RN_kind _ _ _ _ _ Hp). reflexivity.
  Qed.
  Lemma word_class t k x : sigE t = true -> is_node t = false -> token_class (the_table x) t = Some k -> k <> TkComment.
  Proof.
    unfold sigE, is_node, token_class, ekind. destruct (el t) as [k' t'|]; [|discriminate]. cbn [significant gkind]. intros S _ H ->.
    destruct k'; try discriminate S; try discriminate H; repeat match type of H with context [if ?b then _ else _] => destruct b end;
      try discriminate H; destruct (parent t); try discriminate H; destruct (is_some _); discriminate H.
  Qed.
  Lemma trivia_class t x : sigE t = false -> ekind t <> WHITESPACE -> token_class (the_table x) t = Some TkComment.
  Proof.
    unfold sigE, token_class, ekind. destruct (el t) as [k' t'|]; [|discriminate]. cbn [significant gkind]. intros S N.
    destruct k'; try discriminate S; try reflexivity. congruence.
  Qed.

  Variable types : list string.
  Notation kinds := (token_kinds types).
  Lemma comment_type k i : index_of k kinds = Some i -> forall s, st_type s = i -> is_comment types s = tkind_eqb k TkComment.
  Proof.
    intros H s <-. apply index_of_some in H. unfold is_comment. rewrite legend_kinds, nth_error_map, H. cbn [option_map].
    destruct (tkind_eqb k TkComment) eqn:E; [apply tkind_eqb_eq in E; now subst|].
    apply not_true_iff_false. intros X. apply String.eqb_eq in X. apply (tkind_name_inj k TkComment) in X. subst k.
    unfold tkind_eqb in E. now destruct (tkind_eq_dec TkComment TkComment).
  Qed.

  (** What is built for the words. *)
  Lemma build_words x : forall l dl ps ts, (forall t, In t l -> is_node t = false) -> build_tokens x kinds (the_table x) dl ps l = Ans ts ->
    Forall2 (fun t s => token_type kinds (the_table x) t = Some (st_type s) /\ st_length s = glen (el t))
      (filter (fun t => is_some (token_type kinds (the_table x) t)) (filter sigE l)) (filter (fun s => negb (is_comment types s)) ts).
  Proof.
    induction l as [|t l IH]; intros dl ps ts Hl H; cbn [build_tokens] in H; [injection H as <-; constructor|].
    assert (Hl' : forall t, In t l -> is_node t = false) by (intros u Hu; apply Hl; now right). pose proof (Hl t (or_introl eq_refl)) as Nt.
    cbn [filter]. destruct (kind_eqb (ekind t) WHITESPACE) eqn:W.
    - apply kind_eqb_eq in W.
      assert (S : sigE t = false). { unfold sigE, ekind, is_node in *. destruct (el t) as [k u|]; [|discriminate]. cbn in *. now subst k. }
      rewrite S. destruct (Nat.ltb _ _); now apply IH in H.
    - assert (NW : ekind t <> WHITESPACE) by (intros E; rewrite E in W; discriminate W).
      destruct (token_type kinds (the_table x) t) as [ty|] eqn:Ty.
      + destruct (line_col _ _) as [p|]; [|discriminate H]. cbn [amust abind] in H.
        match type of H with abind ?b _ = _ => destruct b as [ts'| |] eqn:B; try discriminate H end. cbn [abind] in H. injection H as <-.
        apply IH in B; [|exact Hl']. cbn [filter]. pose proof Ty as Et.
        unfold token_type in Ty. destruct (token_class (the_table x) t) as [k|] eqn:C; [|discriminate].
        match goal with |- context [is_comment types ?q] => rewrite (comment_type k ty Ty q eq_refl) end. destruct (sigE t) eqn:S.
        * pose proof (word_class t k x S Nt C) as NC. assert (E : tkind_eqb k TkComment = false) by (apply not_true_iff_false; intros X; now apply tkind_eqb_eq in X).
          rewrite E. cbn [negb filter]. rewrite Et. cbn [is_some]. constructor; [|exact B].
          cbn [st_type st_length]. auto.
        * rewrite (trivia_class t x S NW) in C. injection C as <-. cbn [tkind_eqb]. exact B.
      + apply IH in H; [|exact Hl']. destruct (sigE t); [|exact H]. cbn [filter]. now rewrite Ty.
  Qed.
  Lemma len_text e : glen (el e) = tlen (etext e).
  Proof. unfold etext. apply glen_tlen. Qed.
  Lemma A_semantic_tokens : AnsR (SameTokens types tree tree') (semantic_tokens_full types src) (semantic_tokens_full types src').
  Proof.
    destruct (C23_total types src) as (ts & H). destruct (C23_total types src') as (ts' & H'). rewrite H, H'. constructor.
    unfold semantic_tokens_full in H, H'. rewrite symbols_spec in H, H'. cbn [abind] in H, H'.
    apply build_words in H, H'; try (intros t Ht; apply filter_In in Ht as [_ Ht]; now apply negb_true_iff in Ht).
    rewrite words_all in H, H'.
    assert (W : Forall2 (fun t t' => R t t' /\ is_node t = false /\ True) (filter (fun t => is_some (token_type kinds tb t)) (words_of (root_of tree))) (filter (fun t => is_some (token_type kinds tb' t)) (words_of (root_of tree')))).
    { apply F2_in_and; [|intros t Ht|auto].
      - apply F2_filter; [|apply R_words, R_root, HS]. intros t t' Ht. unfold token_type. now rewrite (R_class _ _ Ht).
      - apply filter_In in Ht as [Ht _]. apply filter_In in Ht as [_ Ht]. apply andb_prop in Ht as [_ Ht]. now apply negb_true_iff in Ht. }
    unfold SameTokens. revert H H'. generalize (filter (fun s => negb (is_comment types s)) ts), (filter (fun s => negb (is_comment types s)) ts').
    induction W as [|t t' l l' (Ht & Nt & _) _ IH]; intros us us' H H'; inversion H as [|? s ? r (A & B) Hr]; inversion H' as [|? s' ? r' (A' & B') Hr']; subst; constructor; auto.
    unfold token_type in A, A'. rewrite <- (R_class _ _ Ht), A in A'. injection A' as A'. split; [exact A'|].
    exists t, t'. rewrite <- !len_text. split; [eapply R_counterpart, Ht|]. auto.
  Qed.

  (** ** Selection ranges *)

  Lemma A_parent_ranges : forall us us' g g' o o', R (mk_elem g o us) (mk_elem g' o' us') ->
    AnsR (Forall2 SameP) (parent_ranges src us) (parent_ranges src' us').
  Proof.
    induction us as [|u us IH]; intros us' g g' o o' H; pose proof (R_parent Name tree tree' _ _ H) as HP; unfold parent in HP; cbn [ups] in HP;
      destruct us' as [|u' us']; inversion HP as [|? ? HP' ]; subst; cbn [parent_ranges]; [repeat constructor|].
    eapply AR_bind; [apply (A_range Name src src'), HP'|]. intros r r' Hr. eapply AR_bind; [eapply IH, HP'|]. intros l l' Hl. repeat constructor; auto.
  Qed.
  Lemma A_selection_at pos pos' t t' : CursorOn src pos t -> CursorOn src' pos' t' -> R t t' ->
    AnsR (Forall2 (Forall2 SameP)) (selection_at src pos) (selection_at src' pos').
  Proof.
    intros Hc Hc' Ht. unfold selection_at, cursor_token. rewrite Hc, Hc'. eapply AR_bind; [apply (A_range Name src src'), Ht|]. intros r r' Hr.
    destruct t as [g o us], t' as [g' o' us']. cbn [ups]. eapply AR_bind; [eapply A_parent_ranges, Ht|]. intros l l' Hl. repeat constructor; auto.
  Qed.
  Lemma A_selection ps ps' : Forall2 (fun p p' => exists t t', CursorOn src p t /\ CursorOn src' p' t' /\ R t t') ps ps' ->
    AnsR (Forall2 (Forall2 SameP)) (selection_range src ps) (selection_range src' ps').
  Proof.
    intros H. unfold selection_range. eapply AR_bind; [eapply AR_map; [|exact H]|].
    - intros p p' (t & t' & H1 & H2 & H3). eapply A_selection_at; eauto.
    - intros l l' Hl. constructor. now apply F2_concat.
  Qed.
End Alike.
