(** The diagnostics of documents that are alike. *)

From Coq Require Import String List NArith Bool Arith Lia.
From Verif Require Import Text Kind Green SpecParser SpecSyntax Lexer LexerFacts Winnow Grammar Sem Lossless Total
  Bounds Lang TokForm Shape ThmParser Red Unique LineIndex Cursor Doc Ast Binder Preorder SpecBinder BinderFacts BinderDefs Blocks
  Nav NavSpec NavFacts RefFacts InstrMeta Types Check CheckFacts SpecAlike Alike AlikeNav.
Import ListNotations.

(** ** The first token of a block *)

Fixpoint tkf (g : grammar) : bool :=
  match g with
  | GTok _ _ => true
  | GSeq a _ | GRep1 a | GCtx _ a => tkf a
  | GAlt a b | GIf _ _ a b | GTill a b => tkf a && tkf b
  | _ => false
  end.
Lemma Lang_tkf ib st g o : Lang ib st g o -> wf_tok g -> tkf g = true ->
  exists k t r, o = Tok k t :: r /\ t <> [].
Proof.
  induction 1; cbn [tkf wf_tok]; intros Hw Hf; split_hyps; try discriminate Hf; auto.
  - eexists _, _, _. split; [reflexivity|]. eapply Hw. exact H.
  - destruct IHLang1 as (k & t & r & -> & Ht); auto. eexists _, _, _. split; [reflexivity|exact Ht].
  - destruct IHLang1 as (k & t & r & -> & Ht); auto. eexists _, _, _. split; [reflexivity|exact Ht].
  - destruct IHLang1 as (k & t & r & -> & Ht); auto. eexists _, _, _. split; [reflexivity|exact Ht].
Qed.
Lemma block_rules : forallb (fun r => tkf (snd r) || negb (existsb (kind_eqb (fst r)) block_kinds)) all_rules = true.
Proof. vm_compute. reflexivity. Qed.
Lemma block_first src b : InTree (tree_of src) b -> is_node b = true -> is_block b = true ->
  exists k t r, gchildren (el b) = Tok k t :: r /\ t <> [].
Proof.
  intros H Hn Hb. pose proof (Desc_Sub _ _ H) as Hs. cbn [root_of el] in Hs.
  unfold is_node, is_block, ekind in *. destruct (el b) as [k t|k cs]; [discriminate|]. cbn [gkind gchildren] in *.
  destruct (parse_rules _ _ _ _ _ _ (parse_of src) Hs) as [[-> _]|(a & Ha & HL)]; [discriminate Hb|].
  pose proof block_rules as Hk. rewrite forallb_forall in Hk. apply Hk in Ha as Hk2. cbn [fst snd] in Hk2.
  unfold block_kinds in Hk2. rewrite Hb in Hk2. rewrite orb_false_r in Hk2.
  eapply Lang_tkf; [exact HL|exact (all_rules_wf _ _ Ha)|exact Hk2].
Qed.
Lemma tlen_pos' t : t <> [] -> 0 < tlen t.
Proof. apply tlen_pos. Qed.

(** Nodes below a block start after it. *)
Lemma block_inside src b a : InTree (tree_of src) b -> is_node b = true -> is_block b = true ->
  is_node a = true -> Desc b a -> a = b \/ estart b < estart a.
Proof.
  intros Hb Nb Bb Na H. destruct (block_first src b Hb Nb Bb) as (k & t & r & G & Ht).
  apply Desc_top in H as [->|(c & Hc & Hd)]; [now left|]. right.
  apply Desc_range in Hd as Hr. apply child_in in Hc as (l & g & r2 & G2 & ->). unfold estart in *. cbn [off] in Hr.
  rewrite G in G2. destruct l as [|x l].
  - cbn in G2. injection G2 as <- _. apply Desc_top in Hd as [<-|(d & [] & _)]. discriminate Na.
  - cbn in G2. injection G2 as <- _. rewrite glens_cons in Hr. pose proof (tlen_pos t Ht). cbn [glen] in Hr. lia.
Qed.
Lemma contains_desc src a b : InTree (tree_of src) a -> InTree (tree_of src) b -> is_node a = true -> is_node b = true ->
  is_block a = true -> is_block b = true -> (key_contains (key_of a) (key_of b) = true <-> Desc a b).
Proof.
  intros Ta Tb Na Nb Ba Bb. unfold key_contains, key_of. cbn [key_start key_end]. rewrite andb_true_iff, !Nat.leb_le.
  assert (NE : forall x, InTree (tree_of src) x -> is_node x = true -> is_block x = true -> estart x < eend x).
  { intros x Tx Nx Bx. apply (node_nonempty src); auto; unfold is_block in Bx; intros K; rewrite K in Bx; discriminate Bx. }
  split; [|intros H; apply Desc_range in H; lia]. intros [H1 H2].
  destruct (Desc_cases _ _ _ Ta Tb) as [H|[H|H]]; [exact H| |].
  - destruct (block_inside src b a Tb Nb Bb Na H) as [->|H3]; [constructor|lia].
  - exfalso. pose proof (NE _ Ta Na Ba). pose proof (NE _ Tb Nb Bb).
    destruct H as (p & l & ga & m & gb & r & ca & cb & _ & _ & -> & -> & [[D1 D2]|[D1 D2]]); apply Desc_range in D1, D2;
      unfold estart, eend in *; cbn [off el] in *; rewrite glens_app, glens_cons in *; lia.
Qed.

(** ** Types *)

Section Green.
  Variable Name : text -> text -> Prop.
  Notation Sim := (Sim Name).

  Lemma G_find f g g' : (forall c, f c = true -> significant c = true) -> (forall c c', Sim c c' -> f c = f c') ->
    Sim g g' -> OptR Sim (find f (gchildren g)) (find f (gchildren g')).
  Proof.
    intros Hf He H. rewrite <- (find_filter_sub f significant (gchildren g)), <- (find_filter_sub f significant (gchildren g')) by exact Hf.
    apply F2_find; [exact He|]. now apply Sim_kids.
  Qed.
  Lemma G_child k g g' : Sim g g' -> OptR Sim (green_child k g) (green_child k g').
  Proof.
    apply G_find.
    - intros [|]; [discriminate|reflexivity].
    - intros c c' []; reflexivity.
  Qed.
  Lemma find_map_sig {B} (f : green -> option B) l : (forall c, significant c = false -> f c = None) ->
    find_map f (filter significant l) = find_map f l.
  Proof.
    intros H. induction l as [|c l IH]; [reflexivity|]. cbn [filter find_map]. destruct (significant c) eqn:S; cbn [find_map].
    - now rewrite IH.
    - now rewrite (H _ S).
  Qed.
  Lemma find_map_F2 {B} (f : green -> option B) l l' : (forall c c', Sim c c' -> f c = f c') -> Forall2 Sim l l' ->
    find_map f l = find_map f l'.
  Proof. intros H HF. induction HF as [|c c' l l' Hc HF IH]; [reflexivity|]. cbn [find_map]. now rewrite (H _ _ Hc), IH. Qed.
  Lemma find_map_kids {B} (f : green -> option B) g g' : (forall c, significant c = false -> f c = None) ->
    (forall c c', Sim c c' -> f c = f c') -> Sim g g' -> find_map f (gchildren g) = find_map f (gchildren g').
  Proof.
    intros H1 H2 H. rewrite <- (find_map_sig f (gchildren g)), <- (find_map_sig f (gchildren g')) by exact H1.
    apply find_map_F2; [exact H2|]. now apply Sim_kids.
  Qed.
  Lemma G_valtype g g' : Sim g g' -> valtype_of_green g = valtype_of_green g'.
  Proof.
    apply find_map_kids.
    - intros [k t|k cs] S; [|discriminate S]. destruct k; try reflexivity; discriminate S.
    - intros c c' [k t t' Hk Ht|k cs cs' _]; [|reflexivity]. destruct k; try reflexivity; cbn in Ht; now subst t'.
  Qed.
  Lemma G_extract g g' : Sim g g' -> extract_type g = extract_type g'.
  Proof.
    intros H. unfold extract_type. rewrite (G_valtype _ _ H). destruct valtype_of_green; [reflexivity|].
    apply find_map_kids; [| |exact H].
    - intros [k t|k cs] S; [reflexivity|discriminate S].
    - intros c c' Hc. pose proof (G_valtype _ _ Hc) as E. destruct Hc as [|k cs cs' Hc]; [reflexivity|]. destruct k; try reflexivity. exact E.
  Qed.
  Lemma G_global g g' : Sim g g' -> extract_global_type g = extract_global_type g'.
  Proof.
    intros H. unfold extract_global_type. destruct (G_child GLOBAL_TYPE _ _ H) as [|a b Hab]; [reflexivity|]. now apply G_extract.
  Qed.

  Section Trees.
    Variable g g' : green.
    Hypothesis H : Sim g g'.
    Notation R := (Alike.R Name g g').
    Lemma R_token_text' e e' k : is_trivia_kind k = false -> k <> IDENT -> R e e' ->
      option_map etext (token e k) = option_map etext (token e' k).
    Proof.
      intros Hk Hi HR. pose proof (R_token Name g g' k _ _ Hk HR) as HT.
      destruct (token e k) as [t|] eqn:E; inversion HT as [|? t' Ht]; subst; cbn; [|reflexivity]. f_equal.
      unfold token in E. apply find_some in E as [_ E]. apply andb_prop in E as [E1 E2].
      apply negb_true_iff in E1. apply kind_eqb_eq in E2. eapply R_text; [exact Ht|exact E1|congruence].
    Qed.
    Lemma R_ident' e e' : R e e' -> OptR Name (option_map etext (token e IDENT)) (option_map etext (token e' IDENT)).
    Proof.
      intros HR. pose proof (R_token Name g g' IDENT _ _ eq_refl HR) as HT.
      destruct (token e IDENT) as [t|] eqn:E; inversion HT as [|? t' Ht]; subst; cbn; constructor.
      unfold token in E. apply find_some in E as [_ E]. apply andb_prop in E as [E1 E2].
      apply negb_true_iff in E1. apply kind_eqb_eq in E2. eapply R_name; eauto.
    Qed.
    Lemma G_valtype_from e e' : R e e' -> valtype_from e = valtype_from e'.
    Proof.
      intros HR. unfold valtype_from.
      pose proof (R_token_text' _ _ NUM_TYPE eq_refl ltac:(discriminate) HR) as E1.
      pose proof (R_token_text' _ _ VEC_TYPE eq_refl ltac:(discriminate) HR) as E2.
      pose proof (R_token_text' _ _ REF_TYPE eq_refl ltac:(discriminate) HR) as E3.
      destruct (token e NUM_TYPE), (token e' NUM_TYPE); try discriminate E1; cbn in E1; [injection E1 as ->; reflexivity|].
      destruct (token e VEC_TYPE), (token e' VEC_TYPE); try discriminate E2; [reflexivity|].
      destruct (token e REF_TYPE), (token e' REF_TYPE); try discriminate E3; cbn in E3; [injection E3 as ->|]; reflexivity.
    Qed.
    Lemma G_valtypes l l' : Forall2 R l l' -> map_ans valtype_from l = map_ans valtype_from l'.
    Proof. induction 1 as [|e e' l l' He HF IH]; [reflexivity|]. cbn [map_ans]. now rewrite (G_valtype_from _ _ He), IH. Qed.
    Definition parM (p p' : valtype * option text) : Prop := fst p = fst p' /\ OptR Name (snd p) (snd p').
    Lemma G_param e e' : R e e' -> AnsR (Forall2 parM) (sig_param e) (sig_param e').
    Proof.
      intros HR. unfold sig_param. pose proof (R_childs Name g g' VAL_TYPE _ _ HR) as HC.
      assert (HV : forall l l', Forall2 R l l' ->
        AnsR (Forall2 parM) (abind (map_ans valtype_from l) (fun ts => Ans (map (fun t => (t, None)) ts)))
                            (abind (map_ans valtype_from l') (fun ts => Ans (map (fun t => (t, None)) ts)))).
      { intros l l' HF. rewrite (G_valtypes _ _ HF). destruct (map_ans valtype_from l') as [vs| |]; cbn [abind]; constructor.
        apply (F2_map eq); [|now apply F2_refl]. intros v ? <-. split; [reflexivity|constructor]. }
      pose proof (R_ident' _ _ HR) as HI.
      destruct (token e IDENT) as [i|], (token e' IDENT) as [i'|]; cbn in HI; inversion HI as [|? ? Hi]; subst.
      - destruct HC as [|v v' vs vs' Hv HC]; [apply (HV [] []); constructor|].
        rewrite (G_valtype_from _ _ Hv). destruct (valtype_from v') as [ty| |]; cbn [abind]; constructor.
        constructor; [|constructor]. split; [reflexivity|]. now constructor.
      - now apply HV.
    Qed.
    Definition sigM (s s' : funcsig) : Prop := Forall2 parM (sig_params s) (sig_params s') /\ sig_results s = sig_results s'.
    Lemma G_sig : AnsR sigM (extract_sig g) (extract_sig g').
    Proof.
      unfold extract_sig. pose proof (R_root Name g g' H) as HR.
      eapply AR_bind; [eapply AR_map; [apply G_param|apply R_childs, HR]|]. intros ps ps' Hps.
      assert (HF : Forall2 R (flat_map (fun r => childs r VAL_TYPE) (childs (root_of g) RESULT))
                             (flat_map (fun r => childs r VAL_TYPE) (childs (root_of g') RESULT))).
      { eapply F2_flat_map; [intros a b Hab; apply R_childs; exact Hab|apply R_childs, HR]. }
      rewrite (G_valtypes _ _ HF). destruct map_ans as [rs| |]; cbn [abind]; constructor.
      split; [now apply F2_concat|reflexivity].
    Qed.
  End Trees.
End Green.

(** ** First tokens *)

(** Going down through first children one meets no white space. *)
Fixpoint headed (g : green) : bool :=
  match g with
  | Tok k _ => negb (is_trivia_kind k)
  | Node _ cs => match cs with [] => true | c :: _ => headed c end
  end.
Lemma headed_sig g : headed g = true -> significant g = true.
Proof. destruct g; cbn; auto. Qed.

Lemma filter_first e l : significant (el e) = true -> filter sigE (e :: l) = e :: filter sigE l.
Proof. intros H. cbn [filter]. unfold sigE at 1. now rewrite H. Qed.

Section Alike.
  Variable Name : text -> text -> Prop.
  Hypothesis HN : forall x x' y y', Name x x' -> Name y y' -> text_eqb x y = text_eqb x' y'.
  Variable src src' : text.
  Notation tree := (tree_of src).
  Notation tree' := (tree_of src').
  Hypothesis HS : Sim Name tree tree'.
  Notation R := (R Name tree tree').
  Notation RN := (RN Name src src').
  Notation SymM := (SymM Name src src').
  Notation SymT := (SymT Name src src').
  Notation KM := (KM Name src src').
  Notation tb := (the_table src).
  Notation tb' := (the_table src').
  Notation SameP := (SamePlace src src').
  Notation R_kind := (R_kind Name tree tree').
  Notation RN_kind := (RN_kind Name src src').
  Notation KM_eqb := (KM_eqb Name src src').

  Definition SameDiag (d d' : diag) : Prop :=
    SameP (d_range d) (d_range d') /\ SameText Name (d_message d) (d_message d')
    /\ OptR (Forall2 (fun p p' => SameP (fst p) (fst p') /\ SameText Name (snd p) (snd p'))) (d_related d) (d_related d').
  Notation SameDiags := (Forall2 SameDiag).

  Lemma A_diag_at e e' m : R e e' -> AnsR SameDiag (diag_at src e m) (diag_at src' e' m).
  Proof.
    intros H. unfold diag_at. eapply AR_bind; [eapply A_range; exact H|]. intros r r' Hr. constructor.
    split; [exact Hr|]. split; [constructor|constructor].
  Qed.
  Lemma A_one e e' m : R e e' ->
    AnsR SameDiags (abind (diag_at src e m) (fun d => Ans [d])) (abind (diag_at src' e' m) (fun d => Ans [d])).
  Proof. intros H. eapply AR_bind; [apply A_diag_at, H|]. intros. constructor. constructor; [assumption|constructor]. Qed.
  Lemma A_nil {A B} (P : A -> B -> Prop) : AnsR (Forall2 P) (Ans []) (Ans []).
  Proof. constructor. constructor. Qed.
  Lemma A_concat {A B} (P : A -> B -> Prop) a a' : AnsR (Forall2 (Forall2 P)) a a' ->
    AnsR (Forall2 P) (abind a (fun ls => Ans (concat ls))) (abind a' (fun ls => Ans (concat ls))).
  Proof. intros H. eapply AR_bind; [exact H|]. intros. constructor. now apply F2_concat. Qed.

  Lemma A_multi e e' : R e e' -> AnsR SameDiags (multi_modules src e) (multi_modules src' e').
  Proof.
    intros H. unfold multi_modules. eapply AR_map; [intros x y Hxy; apply A_diag_at; exact Hxy|].
    apply F2_tl. eapply R_childs. exact H.
  Qed.

  (** Literal operands. *)
  Lemma first_token_R : forall g g' o o' us us', R (mk_elem g o us) (mk_elem g' o' us') -> headed g = true -> headed g' = true ->
    OptR R (first_token_of g o us) (first_token_of g' o' us').
  Proof.
    induction g as [k t|k cs IH] using green_ind'; intros g' o o' us us' H H1 H2; pose proof (R_sim _ _ _ _ _ H) as HH; cbn [el] in HH.
    - inversion HH; subst. cbn [first_token_of]. now constructor.
    - inversion HH as [|? ? cs' HF]; subst. cbn [first_token_of].
      pose proof (R_kids Name tree tree' _ _ H) as HK. unfold scwt, children_with_tokens in HK. cbn [el off ups gchildren] in HK.
      destruct cs as [|c cs], cs' as [|c' cs']; cbn [headed] in H1, H2.
      + constructor.
      + cbn [filter] in HF. rewrite (headed_sig _ H2) in HF. inversion HF.
      + cbn [filter] in HF. rewrite (headed_sig _ H1) in HF. inversion HF.
      + cbn [kids] in HK. rewrite !filter_first in HK by (cbn [el]; now apply headed_sig).
        inversion HK; subst. apply (Forall_inv IH); assumption.
  Qed.
  Hypothesis Hhead : forall o, InTree tree o -> is_node o = true -> ekind o = OPERAND -> headed (el o) = true.
  Hypothesis Hhead' : forall o, InTree tree' o -> is_node o = true -> ekind o = OPERAND -> headed (el o) = true.

  Lemma RN_operands e e' : R e e' -> Forall2 RN (operands e) (operands e').
  Proof. intros H. now apply RN_childs. Qed.
  Lemma A_literal e e' : RN e e' -> AnsR SameDiags (literal_operands src e) (literal_operands src' e').
  Proof.
    intros [H Ne]. unfold literal_operands. rewrite <- (R_instr_name _ _ _ _ _ H). destruct (instr_name_of e) as [nm|]; [|apply A_nil].
    apply A_concat.
    assert (HF : Forall2 (fun o o' => RN o o' /\ ekind o = OPERAND /\ True) (childs e OPERAND) (childs e' OPERAND)).
    { apply F2_in_and; [now apply RN_childs| |auto]. intros o Ho. apply filter_In in Ho as [_ Ho]. now apply kind_eqb_eq in Ho. }
    eapply AR_map; [|eapply F2_combine; [apply (F2_refl eq); reflexivity|exact HF]].
    intros [f o] [f' o'] [E (Ho & Ko & _)]. cbn [fst snd] in E, Ho, Ko. subst f'. unfold check_operand. cbn [fst snd].
    assert (HR : OptR R (first_token o) (first_token o')).
    { unfold first_token. pose proof (RN_node' _ _ _ _ _ Ho) as No'. pose proof (RN_kind _ _ Ho) as K. destruct Ho as [Ho No].
      apply first_token_R.
      - destruct o, o'. exact Ho.
      - apply Hhead; [apply Ho|exact No|exact Ko].
      - apply Hhead'; [apply Ho|exact No'|congruence]. }
    destruct HR as [|t t' Ht]; [apply A_nil|]. rewrite <- (R_kind _ _ Ht). destruct existsb; [apply A_nil|]. now apply A_one.
  Qed.

  (** Undefined names. *)
  Lemma R_key_range s s' : SymM s s' -> AnsR SameP (key_range src (s_key s)) (key_range src' (s_key s')).
  Proof.
    intros H. destruct (SM_node _ _ _ _ _ H) as (n & n' & [Hn _] & -> & -> & _). unfold key_range, key_of. cbn [key_start key_end].
    exact (A_range Name src src' _ _ Hn).
  Qed.
  Lemma show_idx_text a b i i' : idxM Name i i' -> SameText Name (a ++ show_idx i ++ b) (a ++ show_idx i' ++ b).
  Proof.
    intros [E HI]. unfold show_idx. destruct HI; [rewrite E; constructor|]. now apply ST_name.
  Qed.
  Lemma Q_undefined s s' : SymM s s' -> is_undefined tb s = is_undefined tb' s'.
  Proof.
    intros H. pose proof (SM_key _ _ _ _ _ H) as HK. unfold is_undefined. rewrite <- (SM_kind _ _ _ _ _ H).
    destruct (s_kind s); try reflexivity;
      try (destruct (Q_find_defs Name HN src src' HS _ _ HK) as [|l l' Hl]; [reflexivity|destruct Hl; reflexivity]).
    - destruct (Q_find_local Name HN src src' HS _ _ HK); reflexivity.
    - f_equal. eapply F2_existsb; [|apply (R_blocks Name src src' HS)].
      intros [[rk dk] i] [[rk' dk'] i'] (B1 & B2 & B3). cbn [fst snd] in *.
      now rewrite (KM_eqb _ _ _ _ B1 HK), (idxM_def Name HN _ _ _ _ (SM_idx _ _ _ _ _ H) B3).
  Qed.
  Lemma A_undef : AnsR SameDiags (undef_check src tb) (undef_check src' tb').
  Proof.
    unfold undef_check. eapply AR_map; [|apply F2_filter; [apply Q_undefined|apply (R_table Name src src' HS)]].
    intros s s' Hs. unfold undef_diag. eapply AR_bind; [apply R_key_range, Hs|]. intros r r' Hr. constructor.
    split; [exact Hr|]. split; [|constructor]. cbn [d_message]. apply show_idx_text, (SM_idx _ _ _ _ _ Hs).
  Qed.

  (** Types. *)
  Lemma A_get_func_sig s s' : SymT s s' -> AnsR (sigM Name) (get_func_sig src tb s) (get_func_sig src' tb' s').
  Proof.
    intros HT. pose proof HT as (H & _). unfold get_func_sig. pose proof (SM_green _ _ _ _ _ H) as HG.
    eapply AR_bind; [apply AR_opt, G_child, HG|]. intros tu tu' Htu.
    assert (E : existsb (fun c => kind_eqb (gkind c) PARAM || kind_eqb (gkind c) RESULT) (gchildren tu)
              = existsb (fun c => kind_eqb (gkind c) PARAM || kind_eqb (gkind c) RESULT) (gchildren tu')).
    { set (f := fun c => kind_eqb (gkind c) PARAM || kind_eqb (gkind c) RESULT).
      assert (Hx : forall l, existsb f (filter significant l) = existsb f l).
      { induction l as [|c l IH]; [reflexivity|]. cbn [filter existsb]. destruct (significant c) eqn:S; cbn [existsb]; [now rewrite IH|].
        rewrite IH. assert (F : f c = false); [|now rewrite F]. unfold f. destruct c as [k t|]; [|discriminate S]. destruct k; try reflexivity; discriminate S. }
      rewrite <- (Hx (gchildren tu)), <- (Hx (gchildren tu')). eapply F2_existsb; [|apply Sim_kids, Htu].
      intros a b Hab. unfold f. now rewrite (Sim_kind _ _ _ Hab). }
    rewrite E. clear E. destruct existsb; [now apply G_sig|].
    eapply AR_bind; [apply AR_must, SymT_to_node, HT|]. intros n n' [Hn _].
    eapply AR_bind; [apply AR_opt, RN_child, Hn|]. intros u u' [Hu _].
    eapply AR_bind; [apply AR_opt, RN_child, Hu|]. intros i i' Hi.
    eapply AR_bind; [apply AR_opt, (T_find_defs Name HN src src' HS), RN_key, Hi|]. intros ds ds' Hds.
    eapply AR_bind; [apply AR_opt, F2_hd, Hds|]. intros d d' (Hd & _).
    eapply AR_bind; [apply AR_opt, G_child, (SM_green _ _ _ _ _ Hd)|]. intros ft ft' Hft. now apply G_sig.
  Qed.
  Lemma T_first_def e e' : RN e e' -> OptR SymT (first_def tb e) (first_def tb' e').
  Proof.
    intros H. unfold first_def. destruct (T_find_defs Name HN src src' HS _ _ (RN_key _ _ _ _ _ H)) as [|l l' Hl]; [constructor|].
    destruct Hl; constructor. assumption.
  Qed.
  Lemma A_eq {A} (a : ans A) : AnsR eq a a.
  Proof. destruct a; constructor. reflexivity. Qed.
  Lemma A_resolve_type e e' : R e e' -> AnsR eq (resolve_type src tb e) (resolve_type src' tb' e').
  Proof.
    intros H. unfold resolve_type. rewrite <- (R_kind _ _ H). destruct kind_eqb; [|constructor].
    rewrite <- (R_instr_name _ _ _ _ _ H). destruct (instr_name_of e) as [nm|]; [|constructor]. cbn [aopt abind].
    pose proof (F2_hd _ _ _ (RN_operands _ _ H)) as HO.
    destruct text_eqb; [|destruct text_eqb; [|destruct text_eqb]].
    - eapply AR_bind; [apply AR_opt, HO|]. intros i i' Hi. eapply AR_bind; [apply AR_opt, T_first_def, Hi|]. intros f f' Hf.
      eapply AR_bind; [apply A_get_func_sig, Hf|]. intros sg sg' [_ E]. rewrite E. apply A_eq.
    - eapply AR_bind; [apply AR_opt, HO|]. intros i i' Hi.
      eapply AR_bind; [apply AR_opt, (T_find_local Name HN src src' HS), RN_key, Hi|]. intros s s' (Hs & _).
      rewrite (G_extract _ _ _ (SM_green _ _ _ _ _ Hs)). apply A_eq.
    - eapply AR_bind; [apply AR_opt, HO|]. intros i i' Hi. eapply AR_bind; [apply AR_opt, T_first_def, Hi|]. intros s s' (Hs & _).
      rewrite (G_global _ _ _ (SM_green _ _ _ _ _ Hs)). apply A_eq.
    - apply A_eq.
  Qed.
  Lemma A_catch {A B} (P : A -> B -> Prop) a a' : AnsR P a a' -> AnsR (OptR P) (catch a) (catch a').
  Proof. intros []; cbn [catch]; constructor; now constructor. Qed.

  Definition KP (o o' : option key) : Prop := OptR KM o o'.
  Definition expM (x x' : expected_type) : Prop := fst x = fst x' /\ OptR KM (snd x) (snd x').
  Lemma Q_declared n n' : RN n n' ->
    Forall2 SymM (filter (fun s => skind_eqb (s_kind s) SParam) (get_declared_params_and_locals tb n))
                 (filter (fun s => skind_eqb (s_kind s) SParam) (get_declared_params_and_locals tb' n')).
  Proof.
    intros H. apply F2_filter; [intros s s' Hs; now rewrite (SM_kind _ _ _ _ _ Hs)|].
    apply F2_filter; [|apply (R_table Name src src' HS)]. intros s s' Hs.
    rewrite (SM_local _ _ _ _ _ Hs). f_equal. apply KM_eqb; [apply (SM_region _ _ _ _ _ Hs)|now apply RN_key].
  Qed.
  Lemma A_expected e e' : R e e' -> AnsR (Forall2 expM) (resolve_expected_types src tb e) (resolve_expected_types src' tb' e').
  Proof.
    intros H. unfold resolve_expected_types. rewrite <- (R_instr_name _ _ _ _ _ H). destruct (instr_name_of e) as [nm|]; [|constructor].
    cbn [aopt abind]. destruct text_eqb.
    - eapply AR_bind; [apply AR_opt, F2_hd, RN_operands, H|]. intros i i' Hi.
      eapply AR_bind; [apply AR_opt, T_first_def, Hi|]. intros f f' Hf.
      eapply AR_bind; [apply AR_must, SymT_to_node, Hf|]. intros n n' Hn.
      eapply AR_bind; [apply A_get_func_sig, Hf|]. intros sg sg' [HP _]. constructor.
      eapply F2_imp; [|eapply (F2_combine eq (OptR KM))].
      + intros [a b] [a' b'] HH. exact HH.
      + eapply F2_map; [|exact HP]. intros p p' [E _]. now rewrite E.
      + eapply F2_map; [|apply Q_declared, Hn]. intros s s' Hs. constructor. eapply SM_key, Hs.
    - destruct (meta_of nm) as [m|]; cbn [aopt abind]; constructor.
      apply (F2_map eq); [|now apply F2_refl]. intros p ? <-. split; [reflexivity|constructor].
  Qed.
  Definition typM (x x' : optype * elem) : Prop := fst x = fst x' /\ R (snd x) (snd x').
  Lemma A_mismatch p p' : expM (fst p) (fst p') /\ typM (snd p) (snd p') -> AnsR SameDiags (type_mismatch src p) (type_mismatch src' p').
  Proof.
    destruct p as [[x rel] [y e]], p' as [[x' rel'] [y' e']]. cbn [fst snd]. intros [[E1 HK] [E2 He]]. cbn [fst snd] in *. subst x' y'.
    unfold type_mismatch. destruct x as [v|]; [|apply A_nil]. destruct y as [w|]; [|apply A_nil]. destruct valtype_eqb; [apply A_nil|].
    eapply AR_bind; [eapply A_range; exact He|]. intros r r' Hr.
    eapply (AR_bind (OptR (Forall2 (fun p p' => SameP (fst p) (fst p') /\ SameText Name (snd p) (snd p'))))).
    - destruct HK as [|k k' (n & n' & [Hn _] & -> & ->)]; [constructor; constructor|].
      eapply AR_bind; [exact (A_range Name src src' _ _ Hn)|]. intros q q' Hq. constructor. constructor. constructor; [|constructor].
      split; [exact Hq|constructor].
    - intros rl rl' Hrl. constructor. constructor; [|constructor]. split; [exact Hr|]. split; [constructor|exact Hrl].
  Qed.
  Lemma A_mismatches ps ps' rs rs' : Forall2 expM ps ps' -> Forall2 typM rs rs' ->
    AnsR SameDiags (type_mismatches src ps rs) (type_mismatches src' ps' rs').
  Proof.
    intros H1 H2. unfold type_mismatches. apply A_concat. eapply AR_map; [apply A_mismatch|]. now apply F2_combine.
  Qed.
  Lemma R_operand_instr o o' : R o o' -> OptR RN (operand_instr o) (operand_instr o').
  Proof.
    intros H. apply F2_find; [|now apply RN_children]. intros a b Hab. unfold is_instr. now rewrite (RN_kind _ _ Hab).
  Qed.
  Definition recM (x x' : list (optype * elem) * list diag) : Prop := Forall2 typM (fst x) (fst x') /\ SameDiags (snd x) (snd x').
  Lemma typs_same e e' ts : R e e' -> Forall2 typM (map (fun t => (t, e)) ts) (map (fun t => (t, e')) ts).
  Proof. intros H. apply (F2_map eq); [|now apply F2_refl]. intros t ? <-. split; [reflexivity|exact H]. Qed.
  Lemma A_receive known o o' : R o o' -> AnsR recM (receive src tb known o) (receive src' tb' known o').
  Proof.
    intros H. unfold receive. destruct (R_operand_instr _ _ H) as [|i i' [Hi _]].
    - destruct known; [|constructor; split; constructor].
      eapply AR_bind; [apply A_diag_at, H|]. intros d d' Hd. constructor. split; [constructor|]. constructor; [exact Hd|constructor].
    - eapply AR_bind; [apply A_catch, A_resolve_type, Hi|]. intros r r' Hr. constructor. split; [|constructor]. cbn [fst].
      destruct Hr as [|ts ? <-]; [constructor|]. now apply typs_same.
  Qed.
  Lemma RN_R l l' : Forall2 RN l l' -> Forall2 R l l'.
  Proof. apply F2_imp. now intros a b []. Qed.
  Lemma A_folded e e' : R e e' -> AnsR SameDiags (check_folded src tb e) (check_folded src' tb' e').
  Proof.
    intros H. unfold check_folded. rewrite <- (R_instr_name _ _ _ _ _ H). destruct (instr_name_of e) as [nm|]; [|apply A_nil].
    destruct (R_token Name tree tree' L_PAREN _ _ eq_refl H) as [|lp lp' _]; [apply A_nil|]. cbv zeta.
    set (skipped := if text_eqb nm (T "call") then 1 else match meta_of nm with Some m => m_operands_count m | None => 0 end).
    eapply AR_bind; [eapply AR_map; [apply A_receive|apply F2_skipn, RN_R, RN_operands, H]|]. intros rc rc' Hrc.
    assert (Hrec : Forall2 typM (concat (map fst rc)) (concat (map fst rc'))).
    { apply F2_concat. eapply F2_map; [|exact Hrc]. now intros a b []. }
    assert (Hd1 : SameDiags (concat (map snd rc)) (concat (map snd rc'))).
    { apply F2_concat. eapply F2_map; [|exact Hrc]. now intros a b []. }
    eapply AR_bind; [apply A_catch, A_expected, H|]. intros ex ex' [|ps ps' Hps]; [now constructor|].
    rewrite <- (F2_length _ _ _ Hps), <- (F2_length _ _ _ Hrec).
    assert (EL : length (filter (fun o => match operand_instr o with None => true | Some _ => false end) (operands e))
               = length (filter (fun o => match operand_instr o with None => true | Some _ => false end) (operands e'))).
    { eapply F2_length, F2_filter; [|apply RN_operands, H]. intros a b [Hab _]. destruct (R_operand_instr _ _ Hab); reflexivity. }
    rewrite <- EL. eapply (AR_bind SameDiags).
    - destruct Nat.eqb; [apply A_nil|now apply A_one].
    - intros d2 d2' Hd2. eapply AR_bind; [now apply A_mismatches|]. intros d3 d3' Hd3. constructor.
      apply Forall2_app; [exact Hd1|]. now apply Forall2_app.
  Qed.
  Lemma A_step st st' e e' : Forall2 typM st st' -> R e e' -> AnsR recM (stack_step src tb st e) (stack_step src' tb' st' e').
  Proof.
    intros Hst H. unfold stack_step. rewrite <- (R_kind _ _ H). destruct kind_eqb; [|constructor; split; [exact Hst|constructor]].
    eapply AR_bind; [apply A_catch, A_expected, H|]. intros ex ex' [|ps ps' Hps]; [constructor; split; [exact Hst|constructor]|].
    rewrite <- (F2_length _ _ _ Hps), <- (F2_length _ _ _ Hst).
    assert (E : match token e L_PAREN with Some _ => 0 | None => length ps end = match token e' L_PAREN with Some _ => 0 | None => length ps end)
      by (destruct (R_token Name tree tree' L_PAREN _ _ eq_refl H); reflexivity).
    rewrite <- E. cbv zeta. eapply (AR_bind SameDiags).
    - destruct Nat.leb; [apply A_nil|now apply A_one].
    - intros d1 d1' Hd1. eapply AR_bind; [apply A_mismatches; [exact Hps|apply F2_skipn, Hst]|]. intros d2 d2' Hd2.
      eapply AR_bind; [apply A_catch, A_resolve_type, H|]. intros r r' Hr. constructor. split; cbn [fst snd].
      + apply Forall2_app; [now apply F2_firstn|]. destruct Hr as [|ts ? <-]; [constructor|now apply typs_same].
      + now apply Forall2_app.
  Qed.
  Lemma A_loop l l' : Forall2 R l l' -> forall st st', Forall2 typM st st' ->
    AnsR SameDiags (stack_loop src tb st l) (stack_loop src' tb' st' l').
  Proof.
    induction 1 as [|e e' l l' He HF IH]; intros st st' Hst; cbn [stack_loop]; [apply A_nil|].
    eapply AR_bind; [apply A_step; eassumption|]. intros sd sd' [H1 H2].
    eapply AR_bind; [apply IH, H1|]. intros ds ds' Hds. constructor. now apply Forall2_app.
  Qed.
  Lemma A_stacked e e' : R e e' -> AnsR SameDiags (check_stacked src tb e) (check_stacked src' tb' e').
  Proof.
    intros H. unfold check_stacked. cbv zeta.
    assert (HF : Forall2 R (filter is_instr (children e)) (filter is_instr (children e'))).
    { apply F2_filter; [|apply RN_R, RN_children, H]. intros a b Hab. unfold is_instr. now rewrite (R_kind _ _ Hab). }
    rewrite (F2_forallb R _ (fun c => match token c L_PAREN with Some _ => true | None => false end)
               (fun a b Hab => match R_token Name tree tree' L_PAREN a b eq_refl Hab in OptR _ x y
                               return match x with Some _ => true | None => false end = match y with Some _ => true | None => false end
                               with OR_none _ => eq_refl | OR_some _ _ _ _ => eq_refl end) _ _ HF).
    destruct forallb; [apply A_nil|]. apply A_loop; [exact HF|constructor].
  Qed.
  Lemma A_check_node e e' : RN e e' -> AnsR SameDiags (check_node src tb e) (check_node src' tb' e').
  Proof.
    intros HR. pose proof HR as [H Hn]. unfold check_node. rewrite <- (R_kind _ _ H).
    destruct (ekind e); try apply A_nil; try (now apply A_stacked); try (now apply A_multi).
    eapply AR_bind; [apply A_literal, HR|]. intros a a' Ha. eapply AR_bind; [apply A_folded, H|]. intros b b' Hb.
    constructor. now apply Forall2_app.
  Qed.

  (** ** Duplicated names *)

  Lemma SymT_node s s' : SymT s s' -> exists n n', RN n n' /\ s_key s = key_of n /\ s_key s' = key_of n'
    /\ to_node tree (s_key s) = Some n /\ to_node tree' (s_key s') = Some n'.
  Proof.
    intros (H & I1 & I2). destruct (SM_to_node _ _ _ _ _ I1 I2 H) as (n & n' & Hn & E & E').
    destruct (SM_node _ _ _ _ _ H) as (m & m' & Hm & K & K' & _). exists n, n'. split; [exact Hn|].
    destruct (raw_pointable src s I1) as (a & (P1 & P2 & P3 & P4) & Ea). destruct (raw_pointable src' s' I2) as (a' & (P1' & P2' & P3' & P4') & Ea').
    rewrite Ea in E. rewrite to_node_ok in E by assumption. injection E as <-.
    rewrite Ea' in E'. rewrite to_node_ok in E' by assumption. injection E' as <-.
    rewrite Ea, Ea', !to_node_ok by assumption. auto.
  Qed.
  Lemma SymT_eqb a a' b b' : SymM a a' -> SymM b b' -> symbol_eqb a b = symbol_eqb a' b'.
  Proof.
    intros Ha Hb. unfold symbol_eqb. rewrite (SM_kind _ _ _ _ _ Ha), (SM_kind _ _ _ _ _ Hb). f_equal.
    apply KM_eqb; eapply SM_key; eassumption.
  Qed.
  (** The range of an element, as offsets. *)
  Definition PM (p p' : nat * nat) : Prop := exists t t', R t t' /\ p = (estart t, eend t) /\ p' = (estart t', eend t').
  Lemma A_ident_range s s' : SymT s s' -> AnsR PM (ident_range src s) (ident_range src' s').
  Proof.
    intros H. destruct (SymT_node _ _ H) as (n & n' & [Hn _] & E & E' & T1 & T2). unfold ident_range. rewrite T1, T2. cbn [amust abind].
    constructor. destruct (R_token Name tree tree' IDENT _ _ eq_refl Hn) as [|t t' Ht].
    - rewrite E, E'. exists n, n'. auto.
    - exists t, t'. auto.
  Qed.
  Lemma A_lsp_of p p' : PM p p' -> AnsR SameP (lsp_of src p) (lsp_of src' p').
  Proof. intros (t & t' & Ht & -> & ->). exact (A_range Name src src' _ _ Ht). Qed.
  Lemma A_ident_lsp s s' : SymT s s' -> AnsR SameP (ident_lsp_range src s) (ident_lsp_range src' s').
  Proof. intros H. unfold ident_lsp_range. eapply AR_bind; [apply A_ident_range, H|]. apply A_lsp_of. Qed.
  Lemma dup_text x x' : Name x x' -> SameText Name (dup_msg x) (dup_msg x').
  Proof. intros H. unfold dup_msg. now apply ST_name. Qed.
  Lemma dup_related_text x x' : Name x x' -> SameText Name (dup_related_msg x) (dup_related_msg x').
  Proof. intros H. unfold dup_related_msg. now apply ST_name. Qed.
  Lemma related_same x x' rs rs' : Name x x' -> Forall2 SameP rs rs' ->
    Forall2 (fun p p' => SameP (fst p) (fst p') /\ SameText Name (snd p) (snd p'))
      (map (fun r => (r, dup_related_msg x)) rs) (map (fun r => (r, dup_related_msg x')) rs').
  Proof. intros H HF. eapply F2_map; [|exact HF]. intros a b Hab. split; [exact Hab|]. now apply dup_related_text. Qed.

  Definition grM (g g' : (text * key) * list symbol) : Prop :=
    Name (fst (fst g)) (fst (fst g')) /\ KM (snd (fst g)) (snd (fst g')) /\ Forall2 SymT (snd g) (snd g').
  Lemma add_same x x' r r' s s' m m' : Name x x' -> KM r r' -> SymT s s' -> Forall2 grM m m' ->
    Forall2 grM (add_to_group x r s m) (add_to_group x' r' s' m').
  Proof.
    intros Hx Hr Hs HF. induction HF as [|[[y q] l] [[y' q'] l'] m m' (H1 & H2 & H3) HF IH]; cbn [add_to_group].
    - constructor; [|constructor]. split; [exact Hx|]. split; [exact Hr|]. constructor; [exact Hs|constructor].
    - cbn [fst snd] in H1, H2, H3. rewrite (HN _ _ _ _ Hx H1), (KM_eqb _ _ _ _ Hr H2).
      destruct (_ && _); constructor; auto; (split; [exact H1|split; [exact H2|]]); cbn [snd]; [now apply F2_snoc|exact H3].
  Qed.
  Lemma groups_same l l' : Forall2 SymT l l' -> Forall2 grM (name_groups l) (name_groups l').
  Proof.
    intros HF. unfold name_groups.
    assert (H : forall m m', Forall2 grM m m' ->
      Forall2 grM (fold_left (fun m s => match i_name (s_idx s) with Some x => add_to_group x (s_region s) s m | None => m end) l m)
                  (fold_left (fun m s => match i_name (s_idx s) with Some x => add_to_group x (s_region s) s m | None => m end) l' m')).
    { induction HF as [|s s' l l' Hs HF IH]; intros m m' Hm; cbn [fold_left]; [exact Hm|]. apply IH.
      pose proof Hs as (Hs2 & _). destruct (SM_idx _ _ _ _ _ Hs2) as [_ HI]. destruct HI as [|x x' Hx]; [exact Hm|].
      apply add_same; auto. apply (SM_region _ _ _ _ _ Hs2). }
    apply H. constructor.
  Qed.
  Lemma T_table : Forall2 SymT (symbols tb) (symbols tb').
  Proof. apply F2_T; [apply (R_table Name src src' HS)|apply incl_refl|apply incl_refl]. Qed.
  Lemma A_group g g' : grM g g' -> AnsR SameDiags (group_diags src g) (group_diags src' g').
  Proof.
    intros (H1 & H2 & H3). unfold group_diags. eapply AR_map; [|exact H3]. intros s s' Hs. unfold group_diag.
    eapply AR_bind; [apply A_ident_lsp, Hs|]. intros r r' Hr.
    eapply AR_bind; [eapply AR_map; [apply A_ident_lsp|]|].
    - apply F2_filter; [|exact H3]. intros a b Hab. f_equal. apply SymT_eqb; [apply Hab|apply Hs].
    - intros rs rs' Hrs. constructor. split; [exact Hr|]. split; [now apply dup_text|]. constructor. now apply related_same.
  Qed.
  Lemma A_dup_scope : AnsR SameDiags (dup_scope src tb) (dup_scope src' tb').
  Proof.
    unfold dup_scope. apply A_concat. eapply AR_map; [apply A_group|]. apply F2_filter.
    - intros a b (_ & _ & H). now rewrite (F2_length _ _ _ H).
    - apply groups_same, F2_filter; [|apply T_table]. intros s s' (Hs & _). unfold dup_kind. now rewrite (SM_kind _ _ _ _ _ Hs).
  Qed.

  Lemma T_parent_blocks n : forall r r', KM r r' -> OptR (Forall2 SymT) (parent_blocks n tb r) (parent_blocks n tb' r').
  Proof.
    induction n as [|n IH]; intros r r' Hr; cbn [parent_blocks];
      (destruct (T_find_key Name src src' HS _ _ Hr) as [|p p' Hp]; [constructor; constructor|]);
      pose proof Hp as (Hp2 & _); rewrite <- (SM_kind _ _ _ _ _ Hp2); (destruct skind_eqb; [|constructor; constructor]); [constructor|].
    destruct (IH _ _ (SM_region _ _ _ _ _ Hp2)); constructor. now constructor.
  Qed.
  Lemma Q_named x x' s s' : Name x x' -> SymM s s' -> named_as x s = named_as x' s'.
  Proof.
    intros Hx H. unfold named_as. destruct (SM_idx _ _ _ _ _ H) as [_ HI]. destruct HI; [reflexivity|]. now apply HN.
  Qed.

  (** Ancestors. *)
  Lemma R_desc a a' b b' : R a a' -> R b b' -> (Desc a b <-> Desc a' b').
  Proof.
    intros Ha Hb. pose proof (R_ancestors Name tree tree' _ _ Hb) as HF. split; intros H.
    - apply Desc_ancestors in H. destruct (F2_in_l _ _ _ _ HF H) as (x & Hx & Rx).
      assert (x = a') as -> by (eapply R_fun; eassumption).
      eapply ancestors_Desc in Hx; [apply Hx|]. apply Hb.
    - apply Desc_ancestors in H. destruct (F2_in_r _ _ _ _ HF H) as (x & Hx & Rx).
      assert (x = a) as -> by (eapply R_inj; eassumption).
      eapply ancestors_Desc in Hx; [apply Hx|]. apply Hb.
  Qed.
  Lemma block_sym x s : In s (symbols (the_table x)) -> s_kind s = SBlockDef ->
    exists b, InTree (tree_of x) b /\ is_node b = true /\ is_block b = true /\ s_key s = key_of b /\ i_name (s_idx s) = ident_of b.
  Proof.
    intros H K. destruct (block_def_out x s H K) as (b & p & A & B & C & D & ->). exists b. auto.
  Qed.
  Lemma Q_contains s s' o o' : SymT s s' -> SymT o o' -> s_kind s = SBlockDef -> s_kind o = SBlockDef ->
    key_contains (s_key s) (s_key o) = key_contains (s_key s') (s_key o').
  Proof.
    intros Hs Ho Ks Ko.
    assert (HB : forall s s', SymT s s' -> s_kind s = SBlockDef -> exists b b', RN b b' /\ is_block b = true /\ s_key s = key_of b /\ s_key s' = key_of b').
    { clear - HS HN. intros s s' H K. destruct (SymT_node _ _ H) as (n & n' & Hn & E & E' & _). exists n, n'. split; [exact Hn|].
      destruct H as (_ & I1 & _). destruct (block_sym _ _ I1 K) as (b & T1 & N1 & B1 & E1 & _).
      assert (b = n) as -> by (apply (key_inj src); auto; [apply Hn|apply Hn|congruence]). auto. }
    destruct (HB _ _ Hs Ks) as (a & a' & Ra & Ba & -> & ->). destruct (HB _ _ Ho Ko) as (b & b' & Rb & Bb & -> & ->).
    assert (Ba' : is_block a' = true) by (unfold is_block in *; now rewrite <- (RN_kind _ _ Ra)).
    assert (Bb' : is_block b' = true) by (unfold is_block in *; now rewrite <- (RN_kind _ _ Rb)).
    pose proof (RN_node' _ _ _ _ _ Ra) as Na'. pose proof (RN_node' _ _ _ _ _ Rb) as Nb'. destruct Ra as [Ra Na], Rb as [Rb Nb].
    apply eq_true_iff_eq. rewrite (contains_desc src), (contains_desc src'); try assumption; try (apply Ra); try (apply Rb).
    now apply R_desc.
  Qed.

  (** The order of tokens. *)
  Lemma tok_pos x t : InTree (tree_of x) t -> is_node t = false -> estart t < eend t.
  Proof.
    intros H Hn. pose proof (Desc_Sub _ _ H) as Hs. cbn [root_of el] in Hs. unfold is_node, estart, eend in *.
    destruct (el t) as [k u|]; [|discriminate Hn]. apply Sub_token in Hs.
    pose proof (tlen_pos _ (C07_tokens_nonempty _ _ _ _ _ _ (parse_of x) Hs)). cbn [glen]. lia.
  Qed.
  Lemma tok_desc t u : is_node t = false -> Desc t u -> u = t.
  Proof.
    intros N H. apply Desc_top in H as [->|(c & Hc & _)]; [reflexivity|].
    unfold is_node in N. unfold children_with_tokens in Hc. destruct (el t); [destruct Hc|discriminate N].
  Qed.
  (** [t] is in an earlier child than [u]. *)
  Definition Earlier (T : green) (t u : elem) : Prop :=
    exists p l ga m gb r ca cb, InTree T p /\ gchildren (el p) = l ++ ga :: m ++ gb :: r
      /\ ca = mk_elem ga (off p + glens l) (mk_up (el p) (off p) (length l) :: ups p)
      /\ cb = mk_elem gb (off p + glens (l ++ ga :: m)) (mk_up (el p) (off p) (length (l ++ ga :: m)) :: ups p)
      /\ Desc ca t /\ Desc cb u.
  Lemma earlier_start x t u : InTree (tree_of x) t -> is_node t = false -> Earlier (tree_of x) t u -> estart t < estart u.
  Proof.
    intros Ht Nt (p & l & ga & m & gb & r & ca & cb & _ & _ & -> & -> & D1 & D2). pose proof (tok_pos _ _ Ht Nt) as L.
    apply Desc_range in D1, D2. unfold estart, eend in *. cbn [off el] in *. rewrite glens_app, glens_cons in *. lia.
  Qed.
  Lemma earlier_total x t u : InTree (tree_of x) t -> InTree (tree_of x) u -> is_node t = false -> is_node u = false ->
    t = u \/ Earlier (tree_of x) t u \/ Earlier (tree_of x) u t.
  Proof.
    intros Ht Hu Nt Nu. destruct (Desc_cases _ _ _ Ht Hu) as [H|[H|H]].
    - left. symmetry. now apply tok_desc.
    - left. now apply tok_desc.
    - right. destruct H as (p & l & ga & m & gb & r & ca & cb & Hp & G & Ea & Eb & [[D1 D2]|[D1 D2]]);
        [left|right]; exists p, l, ga, m, gb, r, ca, cb; auto 10.
  Qed.
  Lemma above_sig T c t : InTree T c -> Desc c t -> sigE t = true -> sigE c = true.
  Proof.
    intros _ H S. apply Desc_top in H as [->|(d & Hd & _)]; [exact S|]. unfold sigE. unfold children_with_tokens in Hd.
    destruct (el c); [destruct Hd|reflexivity].
  Qed.
  Lemma prefix_shorter : forall (l l2 : list green) a b r r2, significant a = true ->
    length (filter significant l) < length (filter significant l2) -> l ++ a :: r = l2 ++ b :: r2 ->
    exists m, l2 = l ++ a :: m.
  Proof.
    induction l as [|x l IH]; intros [|y l2] a b r r2 S HL E; cbn [app filter length] in *; try lia.
    - injection E as <- E. now exists l2.
    - injection E as <- E. destruct (IH l2 a b r r2 S) as (m & ->); [destruct (significant x); cbn in HL; lia|exact E|].
      now exists m.
  Qed.
  Lemma earlier_same t t' u u' : R t t' -> R u u' -> Earlier tree t u -> Earlier tree' t' u'.
  Proof.
    intros Ht Hu (p & l & ga & m & gb & r & ca & cb & Hp & G & Ea & Eb & D1 & D2).
    assert (Ca : In ca (children_with_tokens p)) by (apply child_in; exists l, ga, (m ++ gb :: r); auto).
    assert (Cb : In cb (children_with_tokens p)).
    { apply child_in. exists (l ++ ga :: m), gb, r. rewrite <- app_assoc. auto. }
    assert (Sa : sigE ca = true).
    { eapply above_sig; [econstructor; [exact Hp|exact Ca]|exact D1|]. apply R_sig in Ht. apply Ht. }
    assert (Sb : sigE cb = true).
    { eapply above_sig; [econstructor; [exact Hp|exact Cb]|exact D2|]. apply R_sig in Hu. apply Hu. }
    assert (Sp : sigE p = true).
    { unfold sigE. unfold children_with_tokens in Ca. destruct (el p); [destruct Ca|reflexivity]. }
    destruct (R_total Name tree tree' HS p Hp Sp) as (p' & Rp). pose proof (R_kids Name tree tree' _ _ Rp) as HK.
    destruct (F2_in_l _ _ _ ca HK) as (ca' & Ia & Ra); [apply filter_In; auto|].
    destruct (F2_in_l _ _ _ cb HK) as (cb' & Ib & Rb); [apply filter_In; auto|].
    apply filter_In in Ia as [Ia _]. apply filter_In in Ib as [Ib _].
    apply child_in in Ia as (l1 & g1 & r1 & G1 & E1). apply child_in in Ib as (l2 & g2 & r2 & G2 & E2).
    pose proof (R_place _ _ _ _ _ Ra) as Pa. pose proof (R_place _ _ _ _ _ Rb) as Pb.
    pose proof (R_desc _ _ _ _ Ra Ht) as [Da _]. pose proof (R_desc _ _ _ _ Rb Hu) as [Db _].
    specialize (Da D1). specialize (Db D2). pose proof (R_in' _ _ _ _ _ Rp) as Ip.
    apply R_sig in Ra as [_ Sa']. clear D1 D2 Ht Hu HK Rb Rp.
    subst ca cb ca' cb'. unfold place in Pa, Pb. cbn [ups map] in Pa, Pb. injection Pa as Pa _. injection Pb as Pb _.
    unfold rank in Pa, Pb. cbn [u_idx u_green] in Pa, Pb.
    assert (F : forall (a b c : list green), a = b ++ c -> firstn (length b) a = b).
    { intros a b c ->. rewrite firstn_app, Nat.sub_diag, firstn_all, firstn_O. apply app_nil_r. }
    rewrite (F _ _ _ G), (F _ _ _ G1) in Pa. rewrite (F _ _ _ G2) in Pb.
    assert (G' : gchildren (el p) = (l ++ ga :: m) ++ gb :: r) by (rewrite <- app_assoc; exact G).
    rewrite (F _ _ _ G') in Pb. rewrite filter_app, app_length in Pb. unfold sigE in Sa. cbn [el] in Sa. cbn [filter] in Pb. rewrite Sa in Pb. cbn [length] in Pb.
    rewrite G1 in G2. destruct (prefix_shorter l1 l2 g1 g2 r1 r2 Sa') as (m' & ->); [lia|exact G2|].
    exists p', l1, g1, m', g2, r2. eexists _, _. split; [exact Ip|].
    split; [rewrite G1, G2, <- app_assoc; reflexivity|]. auto.
  Qed.
  Lemma start_leb t t' u u' : R t t' -> R u u' -> is_node t = false -> is_node u = false ->
    Nat.leb (estart t) (estart u) = Nat.leb (estart t') (estart u').
  Proof.
    intros Ht Hu Nt Nu. pose proof (R_is_node _ _ _ _ _ Ht) as Nt'. pose proof (R_is_node _ _ _ _ _ Hu) as Nu'.
    rewrite Nt in Nt'. rewrite Nu in Nu'. symmetry in Nt', Nu'.
    destruct (earlier_total src t u (R_in _ _ _ _ _ Ht) (R_in _ _ _ _ _ Hu) Nt Nu) as [E|[E|E]].
    - subst u. rewrite (R_fun _ _ _ _ _ _ Ht Hu). now rewrite !Nat.leb_refl.
    - pose proof (earlier_same _ _ _ _ Ht Hu E) as E'. apply (earlier_start src) in E; [|apply Ht|exact Nt].
      apply (earlier_start src') in E'; [|apply Ht|exact Nt'].
      rewrite (proj2 (Nat.leb_le _ _)) by lia. symmetry. apply Nat.leb_le. lia.
    - pose proof (earlier_same _ _ _ _ Hu Ht E) as E'. apply (earlier_start src) in E; [|apply Hu|exact Nu].
      apply (earlier_start src') in E'; [|apply Hu|exact Nu'].
      rewrite (proj2 (Nat.leb_gt _ _)) by lia. symmetry. apply Nat.leb_gt. lia.
  Qed.
  Definition PT (p p' : nat * nat) : Prop :=
    exists t t', R t t' /\ is_node t = false /\ p = (estart t, eend t) /\ p' = (estart t', eend t').
  Lemma PT_leb p p' q q' : PT p p' -> PT q q' -> Nat.leb (fst p) (fst q) = Nat.leb (fst p') (fst q').
  Proof.
    intros (t & t' & Ht & Nt & -> & ->) (u & u' & Hu & Nu & -> & ->). cbn [fst]. now apply start_leb.
  Qed.
  Lemma insert_same p p' l l' : PT p p' -> Forall2 PT l l' -> Forall2 PT (insert_by_start p l) (insert_by_start p' l').
  Proof.
    intros Hp HF. induction HF as [|q q' l l' Hq HF IH]; cbn [insert_by_start]; [constructor; [exact Hp|constructor]|].
    rewrite (PT_leb _ _ _ _ Hp Hq). destruct Nat.leb; constructor; auto.
  Qed.
  Lemma sort_same l l' : Forall2 PT l l' -> Forall2 PT (sort_by_start l) (sort_by_start l').
  Proof. induction 1; cbn; [constructor|]. now apply insert_same. Qed.

  (** A block with a label. *)
  Lemma A_label_range s s' x : SymT s s' -> s_kind s = SBlockDef -> i_name (s_idx s) = Some x ->
    AnsR PT (ident_range src s) (ident_range src' s').
  Proof.
    intros H K I. destruct (SymT_node _ _ H) as (n & n' & Hn & E & E' & T1 & T2). unfold ident_range. rewrite T1, T2. cbn [amust abind].
    destruct H as (_ & I1 & _). destruct (block_sym _ _ I1 K) as (b & B1 & B2 & B3 & B4 & B5).
    assert (b = n) as -> by (apply (key_inj src); auto; [apply Hn|apply Hn|congruence]).
    rewrite I in B5. unfold ident_of in B5. pose proof (R_token Name tree tree' IDENT _ _ eq_refl (proj1 Hn)) as HT.
    destruct (token n IDENT) as [t|] eqn:Et; [|discriminate B5]. inversion HT as [|? t' Ht]; subst. constructor. exists t, t'.
    split; [exact Ht|]. split; [|auto]. unfold token in Et. apply find_some in Et as [_ Et]. apply andb_prop in Et as [Et _].
    now apply negb_true_iff in Et.
  Qed.
  Lemma parent_blocks_kind n : forall r l, parent_blocks n tb r = Some l -> Forall (fun s => s_kind s = SBlockDef) l.
  Proof.
    induction n as [|n IH]; intros r l H; cbn [parent_blocks] in H; (destruct find_key as [p|]; [|injection H as <-; constructor]);
      (destruct skind_eqb eqn:K; [|injection H as <-; constructor]); [discriminate H|].
    destruct parent_blocks as [l2|] eqn:P; [|discriminate H]. injection H as <-. constructor; [now apply skind_eqb_eq|]. eapply IH, P.
  Qed.
  Lemma named_name x s : named_as x s = true -> exists y, i_name (s_idx s) = Some y.
  Proof. unfold named_as. destruct i_name; [eauto|discriminate]. Qed.
  Lemma A_nested_ranges s s' x x' : SymT s s' -> Name x x' -> s_kind s = SBlockDef ->
    AnsR (Forall2 PT) (nested_ranges src tb s x) (nested_ranges src' tb' s' x').
  Proof.
    intros Hs Hx Ks. pose proof Hs as (Hs2 & _). unfold nested_ranges. rewrite <- (Sim_depth _ _ _ HS).
    pose proof (T_parent_blocks (S (gdepth tree)) _ _ (SM_region _ _ _ _ _ Hs2)) as HP.
    destruct (parent_blocks _ tb _) as [ps|] eqn:EP; destruct (parent_blocks _ tb' _) as [ps'|];
      try (now inversion HP); cbn [amust abind]; [|constructor].
    assert (Hps : Forall2 SymT ps ps') by (now inversion HP). clear HP.
    apply parent_blocks_kind in EP.
    eapply (AR_map (fun o o' => SymT o o' /\ s_kind o = SBlockDef /\ exists y, i_name (s_idx o) = Some y)).
    - intros o o' (Ho & Ko & y & Hy). eapply A_label_range; eassumption.
    - apply Forall2_app.
      + apply (F2_imp (fun o o' => SymT o o' /\ (s_kind o = SBlockDef /\ exists y, i_name (s_idx o) = Some y) /\ True)); [tauto|].
        apply F2_in_and; [| |auto].
        * apply F2_filter; [|exact Hps]. intros a b (Hab & _). eapply Q_named; eassumption.
        * intros o Ho. apply filter_In in Ho as [Ho1 Ho2]. rewrite Forall_forall in EP. split; [now apply EP|]. now apply named_name in Ho2.
      + apply (F2_imp (fun o o' => SymT o o' /\ (s_kind o = SBlockDef /\ exists y, i_name (s_idx o) = Some y) /\ True)); [tauto|].
        apply F2_in_and; [| |auto].
        * apply F2_filter; [|apply T_table]. intros a b Hab. pose proof Hab as (Hab2 & _).
          rewrite (SymT_eqb _ _ _ _ Hab2 Hs2), (SM_kind _ _ _ _ _ Hab2), (Q_named _ _ _ _ Hx Hab2).
          destruct (skind_eqb (s_kind b) SBlockDef) eqn:K; [|now rewrite !andb_false_r].
          apply skind_eqb_eq in K. rewrite (Q_contains _ _ _ _ Hs Hab Ks); [reflexivity|]. now rewrite (SM_kind _ _ _ _ _ Hab2).
        * intros o Ho. apply filter_In in Ho as [_ Ho]. apply andb_prop in Ho as [Ho _]. apply andb_prop in Ho as [Ho Ho2].
          apply andb_prop in Ho as [_ Ho]. split; [now apply skind_eqb_eq|]. now apply named_name in Ho2.
  Qed.
  Lemma PT_PM p p' : PT p p' -> PM p p'.
  Proof. intros (t & t' & H & _ & E & E'). exists t, t'. auto. Qed.
  Lemma A_nested s s' : SymT s s' -> AnsR SameDiags (nested_diag src tb s) (nested_diag src' tb' s').
  Proof.
    intros H. pose proof H as (H2 & _). unfold nested_diag. rewrite <- (SM_kind _ _ _ _ _ H2).
    destruct (s_kind s) eqn:K; try apply A_nil. destruct (SM_idx _ _ _ _ _ H2) as [_ HI]. destruct HI as [|x x' Hx]; [apply A_nil|].
    eapply AR_bind; [eapply A_nested_ranges; eassumption|]. intros rs rs' Hrs. rewrite <- (F2_length _ _ _ Hrs).
    destruct Nat.ltb; [|apply A_nil]. eapply AR_bind; [apply A_ident_lsp, H|]. intros r r' Hr.
    eapply AR_bind; [eapply AR_map; [apply A_lsp_of|]|].
    - eapply F2_imp; [apply PT_PM|]. apply sort_same, Hrs.
    - intros rr rr' Hrr. constructor. constructor; [|constructor]. split; [exact Hr|]. split; [now apply dup_text|].
      constructor. now apply related_same.
  Qed.
  Lemma A_dup_names : AnsR SameDiags (dup_names src tb) (dup_names src' tb').
  Proof.
    unfold dup_names. eapply AR_bind; [apply A_dup_scope|]. intros a a' Ha. eapply (AR_bind SameDiags).
    - unfold dup_nested. apply A_concat. eapply AR_map; [apply A_nested|apply T_table].
    - intros b b' Hb. constructor. now apply Forall2_app.
  Qed.

  Lemma A_check : errs_of src = [] -> errs_of src' = [] -> AnsR SameDiags (check src) (check src').
  Proof.
    intros E1 E2. unfold check. rewrite !the_symbols_eq. cbn [abind]. unfold syntax_diags. rewrite E1, E2. cbn [map_ans abind app].
    eapply AR_bind; [eapply AR_map; [apply A_check_node|apply (RN_nodes Name src src' HS)]|]. intros ls ls' Hls.
    eapply AR_bind; [apply A_undef|]. intros c c' Hc. eapply AR_bind; [apply A_dup_names|]. intros d d' Hd. constructor.
    apply Forall2_app; [now apply F2_concat|]. now apply Forall2_app.
  Qed.
End Alike.
