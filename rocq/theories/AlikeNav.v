(** The symbol tables, and the requests on them, of documents that are alike. *)

From Coq Require Import String List NArith Bool Arith Lia.
From Verif Require Import Text Kind Green SpecParser SpecSyntax Lexer LexerFacts Winnow Grammar Sem Lossless Total
  Bounds Lang TokForm Shape Red Unique LineIndex Cursor Doc Ast Binder Preorder SpecBinder BinderFacts BinderDefs Blocks
  Nav NavSpec NavFacts RefFacts SpecAlike Alike.
From Verif Require FmtParse.
Import ListNotations.

(** ** Related answers *)

Lemma AR_bind {A B C D} (P : A -> B -> Prop) (Q : C -> D -> Prop) a a' f g : AnsR P a a' ->
  (forall x y, P x y -> AnsR Q (f x) (g y)) -> AnsR Q (abind a f) (abind a' g).
Proof. intros [| |x y H] Hf; cbn [abind]; [constructor|constructor|auto]. Qed.
Lemma AR_map {A B C D} (P : A -> B -> Prop) (Q : C -> D -> Prop) f g : (forall x y, P x y -> AnsR Q (f x) (g y)) ->
  forall l l', Forall2 P l l' -> AnsR (Forall2 Q) (map_ans f l) (map_ans g l').
Proof.
  intros H l l' HF. induction HF as [|x y l l' Hxy HF IH]; cbn [map_ans]; [now constructor|].
  eapply AR_bind; [apply H, Hxy|]. intros a b Hab. eapply AR_bind; [exact IH|]. intros u v Huv. constructor. now constructor.
Qed.
Lemma AR_opt {A B} (P : A -> B -> Prop) o o' : OptR P o o' -> AnsR P (aopt o) (aopt o').
Proof. intros []; now constructor. Qed.
Lemma AR_must {A B} (P : A -> B -> Prop) o o' : OptR P o o' -> AnsR P (amust o) (amust o').
Proof. intros []; now constructor. Qed.
Lemma AR_imp {A B} (P Q : A -> B -> Prop) : (forall x y, P x y -> Q x y) -> forall a b, AnsR P a b -> AnsR Q a b.
Proof. intros H a b []; constructor; auto. Qed.

Section Alike.
  Variable Name : text -> text -> Prop.
  Hypothesis HN : forall x x' y y', Name x x' -> Name y y' -> text_eqb x y = text_eqb x' y'.
  Variable src src' : text.
  Notation tree := (tree_of src).
  Notation tree' := (tree_of src').
  Hypothesis HS : Sim Name tree tree'.
  Notation R := (R Name tree tree').
  Notation R_kind := (R_kind Name tree tree').
  Notation R_is_node := (R_is_node Name tree tree').
  Notation R_text := (R_text Name tree tree').
  Notation R_child := (R_child Name tree tree').
  Notation R_childs := (R_childs Name tree tree').
  Notation R_children := (R_children Name tree tree').
  Notation R_token := (R_token Name tree tree').
  Notation R_parent := (R_parent Name tree tree').
  Notation R_ancestors := (R_ancestors Name tree tree').

  Lemma parent_node t e p : InTree t e -> parent e = Some p -> is_node p = true.
  Proof.
    intros H E. destruct H as [|q c Hq Hc]; [discriminate E|]. rewrite (parent_child _ _ Hc) in E. injection E as ->.
    unfold is_node. unfold children_with_tokens in Hc. destruct (el p); [destruct Hc|reflexivity].
  Qed.
  (** A pair of nodes. *)
  Definition RN (e e' : elem) : Prop := R e e' /\ is_node e = true.
  Lemma RN_node' e e' : RN e e' -> is_node e' = true.
  Proof. intros [H N]. now rewrite <- (R_is_node _ _ H). Qed.
  Lemma RN_kind e e' : RN e e' -> ekind e = ekind e'.
  Proof. intros [H _]. now apply R_kind. Qed.
  Lemma RN_parent e e' : R e e' -> OptR RN (parent e) (parent e').
  Proof.
    intros H. pose proof (R_parent _ _ H) as HP. destruct (parent e) eqn:E; inversion HP; subst; constructor.
    split; [assumption|]. eapply parent_node; [apply H|exact E].
  Qed.
  Lemma RN_ancestors e e' : RN e e' -> Forall2 RN (ancestors e) (ancestors e').
  Proof.
    intros [H N]. apply (F2_imp (fun a b => R a b /\ is_node a = true /\ True)); [intros a b (A & B & _); split; auto|].
    apply F2_in_and; [now apply R_ancestors| |auto].
    intros a Ha. destruct (ancestors_Desc _ _ _ (R_in _ _ _ _ _ H) Ha) as [Hi Hd]. destruct Hd as [|p c Hd Hc]; [exact N|].
    apply Desc_top in Hd as [->|(x & Hx & _)].
    - unfold is_node. unfold children_with_tokens in Hc. destruct (el p); [destruct Hc|reflexivity].
    - unfold is_node. unfold children_with_tokens in Hx. destruct (el a); [destruct Hx|reflexivity].
  Qed.
  Lemma RN_children e e' : R e e' -> Forall2 RN (children e) (children e').
  Proof.
    intros H. apply (F2_imp (fun a b => R a b /\ is_node a = true /\ True)); [intros a b (A & B & _); split; auto|].
    apply F2_in_and; [now apply R_children| |auto]. intros a Ha. now apply filter_In in Ha.
  Qed.
  Lemma RN_child k e e' : R e e' -> OptR RN (child e k) (child e' k).
  Proof. intros H. apply F2_find; [|now apply RN_children]. intros a b Hab. now rewrite (RN_kind _ _ Hab). Qed.
  Lemma RN_childs k e e' : R e e' -> Forall2 RN (childs e k) (childs e' k).
  Proof. intros H. apply F2_filter; [|now apply RN_children]. intros a b Hab. now rewrite (RN_kind _ _ Hab). Qed.
  Lemma RN_nodes : Forall2 RN (descendants (root_of tree)) (descendants (root_of tree')).
  Proof.
    assert (Hr : is_node (root_of tree) = true).
    { destruct (FmtParse.parse_root _ _ _ _ (parse_of src)) as (cs & E). unfold is_node. cbn [root_of el]. now rewrite E. }
    apply (F2_imp (fun a b => R a b /\ is_node a = true /\ True)); [intros a b (A & B & _); split; auto|].
    apply F2_in_and; [|intros a Ha; now apply filter_In in Ha|auto].
    apply R_descendants; [now apply R_root|exact Hr].
  Qed.

  (** Keys. *)
  Definition KM (k k' : key) : Prop := exists e e', RN e e' /\ k = key_of e /\ k' = key_of e'.
  Lemma RN_key e e' : RN e e' -> KM (key_of e) (key_of e').
  Proof. intros H. exists e, e'. auto. Qed.
  Lemma KM_eqb a a' b b' : KM a a' -> KM b b' -> key_eqb a b = key_eqb a' b'.
  Proof.
    intros (e & e' & H & -> & ->) (f & f' & G & -> & ->). pose proof (RN_node' _ _ H) as Ne. pose proof (RN_node' _ _ G) as Nf.
    destruct H as [H NH], G as [G NG]. apply eq_true_iff_eq. rewrite !key_eqb_eq. split; intros E.
    - apply (key_inj src) in E; [|apply H|apply G|assumption|assumption]. subst f. now rewrite (R_fun _ _ _ _ _ _ H G).
    - apply (key_inj src') in E; [|apply H|apply G|assumption|assumption]. subst f'. now rewrite (R_inj _ _ _ _ _ _ H G).
  Qed.

  (** Symbols. *)
  Definition idxM (i i' : idx) : Prop := i_num i = i_num i' /\ OptR Name (i_name i) (i_name i').
  Lemma idxM_eqb a a' b b' : idxM a a' -> idxM b b' -> idx_eqb a b = idx_eqb a' b'.
  Proof.
    intros [E1 N1] [E2 N2]. unfold idx_eqb. rewrite E1, E2. f_equal. destruct N1, N2; cbn; auto.
  Qed.
  Lemma idxM_def a a' b b' : idxM a a' -> idxM b b' -> is_defined_by a b = is_defined_by a' b'.
  Proof.
    intros [E1 N1] [E2 N2]. unfold is_defined_by. rewrite E1, E2.
    assert (E : match i_name a, i_name b with Some x, Some y => text_eqb x y | _, _ => false end
              = match i_name a', i_name b' with Some x, Some y => text_eqb x y | _, _ => false end)
      by (destruct N1, N2; auto).
    rewrite E. reflexivity.
  Qed.
  Record SymM (s s' : symbol) : Prop := mk_SymM
    { SM_node : exists n n', RN n n' /\ s_key s = key_of n /\ s_key s' = key_of n' /\ s_green s = el n /\ s_green s' = el n';
      SM_region : KM (s_region s) (s_region s');
      SM_kind : s_kind s = s_kind s';
      SM_idx : idxM (s_idx s) (s_idx s') }.
  Lemma SM_key s s' : SymM s s' -> KM (s_key s) (s_key s').
  Proof. intros H. destruct (SM_node _ _ H) as (n & n' & Hn & -> & -> & _). now apply RN_key. Qed.
  Lemma SM_green s s' : SymM s s' -> Sim Name (s_green s) (s_green s').
  Proof. intros H. destruct (SM_node _ _ H) as (n & n' & [Hn _] & _ & _ & -> & ->). apply Hn. Qed.

  Lemma make_sym n n' m m' k i i' : RN n n' -> RN m m' -> idxM i i' ->
    SymM (mk_symbol (key_of n) (el n) (key_of m) k i) (mk_symbol (key_of n') (el n') (key_of m') k i').
  Proof.
    intros Hn Hm Hi. constructor; cbn; [|now apply RN_key|reflexivity|exact Hi]. exists n, n'. auto.
  Qed.
  Lemma token_not_node e k t : token e k = Some t -> is_node t = false /\ ekind t = k.
  Proof.
    intros H. unfold token in H. apply find_some in H as [_ H]. apply andb_prop in H as [H1 H2].
    apply negb_true_iff in H1. apply kind_eqb_eq in H2. auto.
  Qed.
  Lemma R_ident e e' : R e e' -> OptR Name (ident_of e) (ident_of e').
  Proof.
    intros H. unfold ident_of. pose proof (R_token IDENT _ _ eq_refl H) as HT.
    destruct (token e IDENT) as [t|] eqn:E; inversion HT as [|? t' Ht]; subst; cbn; constructor.
    apply token_not_node in E as [E1 E2]. eapply R_name; eauto.
  Qed.
  Lemma R_token_text e e' k : is_trivia_kind k = false -> k <> IDENT -> R e e' ->
    option_map etext (token e k) = option_map etext (token e' k).
  Proof.
    intros Hk Hi H. pose proof (R_token k _ _ Hk H) as HT.
    destruct (token e k) as [t|] eqn:E; inversion HT as [|? t' Ht]; subst; cbn; [|reflexivity]. f_equal.
    apply token_not_node in E as [E1 E2]. apply R_text; [exact Ht|exact E1|congruence].
  Qed.
  Lemma R_instr_name e e' : R e e' -> instr_name_of e = instr_name_of e'.
  Proof. intros H. unfold instr_name_of. apply R_token_text; [reflexivity|discriminate|exact H]. Qed.
  Lemma tokens_int e e' : R e e' ->
    option_map etext (find (fun t => kind_eqb (ekind t) UNSIGNED_INT || kind_eqb (ekind t) INT) (tokens e))
    = option_map etext (find (fun t => kind_eqb (ekind t) UNSIGNED_INT || kind_eqb (ekind t) INT) (tokens e')).
  Proof.
    intros H. set (f := fun t => kind_eqb (ekind t) UNSIGNED_INT || kind_eqb (ekind t) INT).
    assert (Ht : forall e, find f (tokens e) = find f (filter (fun c => negb (is_node c)) (scwt e))).
    { intros x. unfold tokens, scwt. induction (children_with_tokens x) as [|c l IH]; [reflexivity|]. cbn [filter].
      destruct (is_node c) eqn:Nc; cbn [negb].
      - destruct (sigE c); cbn [filter]; [rewrite Nc; cbn [negb]|]; exact IH.
      - cbn [find]. destruct (f c) eqn:F.
        + assert (S : sigE c = true).
          { unfold f, sigE, ekind in *. destruct (el c) as [k t|]; [|reflexivity]. cbn in F |- *.
            apply orb_prop in F as [F|F]; apply kind_eqb_eq in F; subst k; reflexivity. }
          rewrite S. cbn [filter]. rewrite Nc. cbn [negb find]. now rewrite F.
        + destruct (sigE c); cbn [filter]; [rewrite Nc; cbn [negb find]; rewrite F|]; exact IH. }
    rewrite !Ht. clear Ht.
    assert (HF : OptR R (find f (filter (fun c => negb (is_node c)) (scwt e))) (find f (filter (fun c => negb (is_node c)) (scwt e')))).
    { apply F2_find; [intros a b Hab; unfold f; now rewrite (R_kind _ _ Hab)|].
      apply F2_filter; [intros a b Hab; now rewrite (R_is_node _ _ Hab)|]. now apply R_kids. }
    destruct (find f (filter (fun c => negb (is_node c)) (scwt e))) as [t|] eqn:E; inversion HF as [|? t' Htt]; subst; cbn; [|reflexivity].
    f_equal. apply find_some in E as [E1 E2]. apply filter_In in E1 as [_ E1]. apply negb_true_iff in E1. apply R_text; auto.
    unfold f in E2. intros K. rewrite K in E2. discriminate E2.
  Qed.
  Lemma R_ref_idx e e' : R e e' -> OptR idxM (ref_idx e) (ref_idx e').
  Proof.
    intros H. unfold ref_idx. destruct (R_ident _ _ H) as [|x x' Hx].
    - pose proof (tokens_int _ _ H) as E.
      destruct (find _ (tokens e)) as [t|], (find _ (tokens e')) as [t'|]; try discriminate E; [|constructor].
      cbn in E. injection E as E. rewrite E. destruct (parse_u32 (etext t')); cbn; constructor. split; [reflexivity|constructor].
    - constructor. split; [reflexivity|]. now constructor.
  Qed.

  Lemma R_ref_symbol k m m' e e' : RN m m' -> RN e e' ->
    Forall2 SymM (ref_symbol (key_of m) k e) (ref_symbol (key_of m') k e').
  Proof.
    intros Hm He. unfold ref_symbol. destruct (R_ref_idx _ _ (proj1 He)); constructor; [|constructor]. now apply make_sym.
  Qed.
  Lemma R_parent_based e e' id k : RN e e' -> Forall2 SymM (parent_based e id k) (parent_based e' id k).
  Proof.
    intros H. unfold parent_based. destruct (RN_parent _ _ (proj1 H)); constructor; [|constructor].
    apply make_sym; auto. split; [reflexivity|]. apply R_ident, H.
  Qed.
  Lemma R_import_based e e' id k : RN e e' -> Forall2 SymM (import_desc_based e id k) (import_desc_based e' id k).
  Proof.
    intros H. unfold import_desc_based. destruct (RN_parent _ _ (proj1 H)) as [|p p' Hp]; [constructor|].
    destruct (RN_parent _ _ (proj1 Hp)); constructor; [|constructor].
    apply make_sym; auto. split; [reflexivity|]. apply R_ident, H.
  Qed.
  Lemma R_enclosing ks e e' : RN e e' -> OptR RN (enclosing ks e) (enclosing ks e').
  Proof.
    intros H. apply F2_find; [|now apply RN_ancestors]. intros a b Hab. now rewrite (RN_kind _ _ Hab).
  Qed.
  Lemma R_index_ref e e' k : RN e e' -> Forall2 SymM (index_ref e k) (index_ref e' k).
  Proof.
    intros H. unfold index_ref. destruct (R_enclosing [MODULE] _ _ H) as [|m m' Hm]; [constructor|].
    destruct (RN_child INDEX _ _ (proj1 H)); [constructor|]. now apply R_ref_symbol.
  Qed.
  Lemma R_refs_in ks e e' k : RN e e' -> Forall2 SymM (refs_in ks e k) (refs_in ks e' k).
  Proof.
    intros H. unfold refs_in. destruct (R_enclosing ks _ _ H) as [|m m' Hm]; [constructor|].
    eapply F2_flat_map; [|apply RN_children, H]. intros a b Hab. now apply R_ref_symbol.
  Qed.
  Lemma R_slots_of e e' : RN e e' -> Forall2 RN (slots_of e) (slots_of e').
  Proof.
    intros H. unfold slots_of. destruct (R_token IDENT _ _ eq_refl (proj1 H)); [apply RN_childs, H|]. constructor; [exact H|constructor].
  Qed.
  Lemma R_number_slots f f' k : RN f f' -> forall l l', Forall2 RN l l' -> forall i,
    Forall2 SymM (number_slots (key_of f) k i l) (number_slots (key_of f') k i l').
  Proof.
    intros Hf l l' HF. induction HF as [|d d' l l' Hd HF IH]; intros i; cbn [number_slots]; [constructor|]. constructor; [|apply IH].
    apply make_sym; auto. split; [reflexivity|]. cbn [i_name]. rewrite (RN_kind _ _ Hd).
    destruct kind_eqb; [constructor|]. apply R_ident, Hd.
  Qed.
  Lemma R_param_slots e e' : RN e e' -> Forall2 RN (param_slots e) (param_slots e').
  Proof.
    intros H. unfold param_slots. destruct (RN_child TYPE_USE _ _ (proj1 H)) as [|t t' Ht]; [constructor|].
    eapply F2_flat_map; [apply R_slots_of|apply RN_childs, Ht].
  Qed.
  Lemma R_local_slots e e' : RN e e' -> Forall2 RN (local_slots e) (local_slots e').
  Proof. intros H. eapply F2_flat_map; [apply R_slots_of|apply RN_childs, H]. Qed.
  Lemma R_instr_symbols e e' : RN e e' -> Forall2 SymM (instr_symbols e) (instr_symbols e').
  Proof.
    intros H. unfold instr_symbols. rewrite <- (R_instr_name _ _ (proj1 H)). destruct (instr_name_of e) as [t|]; [|constructor].
    repeat (match goal with |- context [if ?b then _ else _] => destruct b end; [now apply R_refs_in|]).
    match goal with |- context [if ?b then _ else _] => destruct b end; [|constructor].
    destruct (R_enclosing [MODULE] _ _ H) as [|m m' Hm]; [constructor|].
    destruct (RN_children _ _ (proj1 H)); [constructor|]. now apply R_ref_symbol.
  Qed.
  Lemma R_node_symbols id e e' : RN e e' -> Forall2 SymM (node_symbols id e) (node_symbols id e').
  Proof.
    intros H. unfold node_symbols. rewrite <- (RN_kind _ _ H).
    destruct (ekind e); try constructor; try (now apply R_parent_based); try (now apply R_import_based);
      try (now apply R_index_ref); try (now apply R_instr_symbols).
    - destruct (RN_parent _ _ (proj1 H)); constructor; [|constructor]. apply make_sym; auto. split; [reflexivity|constructor].
    - apply Forall2_app; [now apply R_parent_based|]. pose proof (R_param_slots _ _ H) as HP.
      apply Forall2_app; [now apply R_number_slots|]. rewrite <- (F2_length _ _ _ HP). apply R_number_slots; [exact H|]. now apply R_local_slots.
  Qed.
  Definition numM (p p' : N * elem) : Prop := fst p = fst p' /\ RN (snd p) (snd p').
  Lemma R_number : forall l l', Forall2 RN l l' -> forall id, Forall2 numM (number id l) (number id l').
  Proof.
    intros l l' HF. induction HF as [|e e' l l' He HF IH]; intros id; cbn [number]; constructor; [split; auto|].
    unfold next_id. rewrite <- (RN_kind _ _ He). apply IH.
  Qed.
  Lemma R_symbols : Forall2 SymM (raw_symbols (nodes src)) (raw_symbols (nodes src')).
  Proof.
    unfold raw_symbols, nodes. eapply F2_flat_map; [|apply R_number, RN_nodes].
    intros [i e] [i' e'] [E H]. cbn [fst snd] in *. subst i'. now apply R_node_symbols.
  Qed.

  (** Labels. *)
  Definition blkM (t t' : key * key * idx) : Prop :=
    KM (fst (fst t)) (fst (fst t')) /\ KM (snd (fst t)) (snd (fst t')) /\ idxM (snd t) (snd t').
  Lemma R_while l l' : Forall2 RN l l' -> Forall2 RN (while_block l) (while_block l').
  Proof.
    induction 1 as [|e e' l l' He HF IH]; cbn [while_block]; [constructor|]. unfold is_block. rewrite (RN_kind _ _ He).
    destruct existsb; constructor; auto.
  Qed.
  Lemma R_enum l l' : Forall2 RN l l' -> forall i, Forall2 numM (enum i l) (enum i l').
  Proof. induction 1; intros i; cbn; constructor; [split; auto|auto]. Qed.
  Lemma R_chain e e' : RN e e' -> Forall2 (fun p p' => KM (fst p) (fst p') /\ idxM (snd p) (snd p')) (chain_at e) (chain_at e').
  Proof.
    intros H. unfold chain_at. destruct (R_enclosing block_kinds _ _ H) as [|b b' Hb]; [constructor|]. unfold levels.
    eapply F2_map; [|apply R_enum, R_while, RN_ancestors, Hb].
    intros [i x] [i' x'] [E Hx]. cbn [fst snd level] in *. subst i'. split; [now apply RN_key|].
    split; [reflexivity|]. apply R_ident, Hx.
  Qed.
  Lemma R_is_br e e' : RN e e' -> is_br e = is_br e'.
  Proof. intros H. unfold is_br. now rewrite (RN_kind _ _ H), (R_instr_name _ _ (proj1 H)). Qed.
  Lemma R_blocks : Forall2 blkM (blocks (the_table src)) (blocks (the_table src')).
  Proof.
    cbn [the_table blocks]. eapply F2_flat_map; [|unfold nodes; apply R_number, RN_nodes].
    intros [i e] [i' e'] [E H]. cbn [fst snd] in *. subst i'. unfold node_blocks. rewrite <- (R_is_br _ _ H).
    destruct is_br; [|constructor]. eapply F2_flat_map; [|now apply R_node_symbols].
    intros s s' Hs. eapply F2_map; [|now apply R_chain]. intros p p' [H1 H2]. split; [now apply SM_key|]. split; assumption.
  Qed.

  Notation tb := (the_table src).
  Notation tb' := (the_table src').
  Lemma R_table : Forall2 SymM (symbols tb) (symbols tb').
  Proof. exact R_symbols. Qed.
  Lemma the_symbols_eq x : the_symbols x = Ans (the_table x).
  Proof. unfold the_symbols. now rewrite table_spec. Qed.

  (** ** Queries *)

  Lemma Q_find_key k k' : KM k k' -> OptR SymM (find_key tb k) (find_key tb' k').
  Proof. intros H. apply F2_find; [|apply R_table]. intros s s' Hs. apply KM_eqb; [now apply SM_key|exact H]. Qed.
  Lemma Q_find_defs k k' : KM k k' -> OptR (Forall2 SymM) (find_defs tb k) (find_defs tb' k').
  Proof.
    intros H. unfold find_defs. destruct (Q_find_key _ _ H) as [|r r' Hr]; [constructor|]. rewrite <- (SM_kind _ _ Hr).
    destruct (def_kind (s_kind r)) as [dk|]; constructor. apply F2_filter; [|apply R_table].
    intros s s' Hs. rewrite (SM_kind _ _ Hs), (KM_eqb _ _ _ _ (SM_region _ _ Hs) (SM_region _ _ Hr)).
    now rewrite (idxM_def _ _ _ _ (SM_idx _ _ Hr) (SM_idx _ _ Hs)).
  Qed.
  Lemma Q_kind_key sk k k' : KM k k' ->
    OptR SymM (find (fun s => skind_eqb (s_kind s) sk && key_eqb (s_key s) k) (symbols tb))
              (find (fun s => skind_eqb (s_kind s) sk && key_eqb (s_key s) k') (symbols tb')).
  Proof.
    intros H. apply F2_find; [|apply R_table]. intros s s' Hs.
    rewrite (SM_kind _ _ Hs). f_equal. apply KM_eqb; [now apply SM_key|exact H].
  Qed.
  Lemma SM_local s s' : SymM s s' -> is_param_or_local s = is_param_or_local s'.
  Proof. intros H. unfold is_param_or_local. now rewrite (SM_kind _ _ H). Qed.
  Lemma Q_find_local k k' : KM k k' -> OptR SymM (find_param_or_local_def tb k) (find_param_or_local_def tb' k').
  Proof.
    intros H. unfold find_param_or_local_def, find_local_ref. destruct (Q_kind_key SLocalRef _ _ H) as [|l l' Hl]; [constructor|].
    apply F2_find; [|apply R_table]. intros s s' Hs.
    rewrite (KM_eqb _ _ _ _ (SM_region _ _ Hs) (SM_region _ _ Hl)), (SM_local _ _ Hs).
    now rewrite (idxM_def _ _ _ _ (SM_idx _ _ Hl) (SM_idx _ _ Hs)).
  Qed.
  Lemma Q_find_block k k' : KM k k' -> OptR SymM (find_block_def tb k) (find_block_def tb' k').
  Proof.
    intros H. unfold find_block_def, find_block_ref. destruct (Q_kind_key SBlockRef _ _ H) as [|b b' Hb]; [constructor|].
    match goal with |- OptR _ (match ?x with _ => _ end) (match ?y with _ => _ end) => assert (HF : OptR blkM x y) end.
    { apply F2_find; [|apply R_blocks]. intros [[rk dk] i] [[rk' dk'] i'] (B1 & B2 & B3). cbn [fst snd] in *.
      now rewrite (KM_eqb _ _ _ _ H B1), (idxM_def _ _ _ _ (SM_idx _ _ Hb) B3). }
    destruct HF as [|[[rk dk] i] [[rk' dk'] i'] (B1 & B2 & B3)]; [constructor|]. now apply Q_find_key.
  Qed.
  Lemma Q_existsb k k' d d' : KM k k' -> KM d d' ->
    existsb (fun t => match t with (rk, dk, _) => key_eqb k rk && key_eqb dk d end) (blocks tb)
    = existsb (fun t => match t with (rk, dk, _) => key_eqb k' rk && key_eqb dk d' end) (blocks tb').
  Proof.
    intros H1 H2. eapply F2_existsb; [|apply R_blocks]. intros [[rk dk] i] [[rk' dk'] i'] (B1 & B2 & B3). cbn [fst snd] in *.
    now rewrite (KM_eqb _ _ _ _ H1 B1), (KM_eqb _ _ _ _ B2 H2).
  Qed.

  Lemma Q_block_refs incl d d' : SymM d d' -> Forall2 SymM (block_refs incl tb d) (block_refs incl tb' d').
  Proof.
    intros H. unfold block_refs. apply Forall2_app; [destruct incl; constructor; auto|].
    eapply F2_flat_map; [|apply R_blocks]. intros [[rk dk] i] [[rk' dk'] i'] (B1 & B2 & B3). cbn [fst snd] in *.
    rewrite (KM_eqb _ _ _ _ B2 (SM_key _ _ H)). destruct key_eqb; [|constructor].
    destruct (Q_find_key _ _ B1); [constructor|]. constructor; [assumption|constructor].
  Qed.
  Lemma Q_refs_of_def incl c c' rk : SymM c c' -> Forall2 SymM (refs_of_def incl tb c rk) (refs_of_def incl tb' c' rk).
  Proof.
    intros H. apply F2_filter; [|apply R_table]. intros s s' Hs. rewrite (SM_kind _ _ Hs), (SM_kind _ _ H).
    rewrite (idxM_eqb _ _ _ _ (SM_idx _ _ H) (SM_idx _ _ Hs)), (idxM_def _ _ _ _ (SM_idx _ _ Hs) (SM_idx _ _ H)).
    now rewrite (KM_eqb _ _ _ _ (SM_region _ _ Hs) (SM_region _ _ H)).
  Qed.
  Lemma Q_refs_of_ref incl c c' dk ds ds' : SymM c c' -> Forall2 SymM ds ds' ->
    Forall2 SymM (refs_of_ref incl tb c dk ds) (refs_of_ref incl tb' c' dk ds').
  Proof.
    intros H Hd. apply F2_filter; [|apply R_table]. intros s s' Hs. rewrite (SM_kind _ _ Hs), (SM_kind _ _ H).
    rewrite (idxM_def _ _ _ _ (SM_idx _ _ H) (SM_idx _ _ Hs)), (KM_eqb _ _ _ _ (SM_region _ _ Hs) (SM_region _ _ H)).
    rewrite (F2_existsb SymM _ (fun d => is_defined_by (s_idx s') (s_idx d)) (fun a b Hab => idxM_def _ _ _ _ (SM_idx _ _ Hs) (SM_idx _ _ Hab)) _ _ Hd).
    reflexivity.
  Qed.
  Lemma Q_refs_of_local incl c c' d d' : SymM c c' -> SymM d d' ->
    Forall2 SymM (refs_of_local_ref incl tb c d) (refs_of_local_ref incl tb' c' d').
  Proof.
    intros H Hd. apply F2_filter; [|apply R_table]. intros s s' Hs. rewrite (SM_kind _ _ Hs).
    rewrite (idxM_def _ _ _ _ (SM_idx _ _ H) (SM_idx _ _ Hs)), (idxM_def _ _ _ _ (SM_idx _ _ Hs) (SM_idx _ _ Hd)).
    now rewrite (KM_eqb _ _ _ _ (SM_region _ _ Hs) (SM_region _ _ H)).
  Qed.
  Lemma Q_listed incl c c' : SymM c c' -> OptR (Forall2 SymM) (listed incl tb c) (listed incl tb' c').
  Proof.
    intros H. unfold listed. rewrite <- (SM_kind _ _ H). pose proof (SM_key _ _ H) as HK.
    destruct (s_kind c) eqn:K; cbn [refs_kind def_kind]; try constructor; try (now apply Q_refs_of_def); try (now apply Q_block_refs);
      try (destruct (Q_find_defs _ _ HK); constructor; now apply Q_refs_of_ref).
    - destruct (Q_find_local _ _ HK); constructor. now apply Q_refs_of_local.
    - destruct (Q_find_block _ _ HK); constructor. now apply Q_block_refs.
  Qed.

  (** ** Answers *)

  Notation SameP := (SamePlace src src').
  Lemma A_range e e' : R e e' -> AnsR SameP (range_of src e) (range_of src' e').
  Proof.
    intros H. destruct (range_of_ok src e (R_in _ _ _ _ _ H)) as (r & -> & H1).
    destruct (range_of_ok src' e' (R_in' _ _ _ _ _ H)) as (r' & -> & H2). constructor. exists e, e'. split; [|auto].
    eapply R_counterpart, H.
  Qed.
  Lemma R_shown d d' : R d d' -> R (shown d) (shown d').
  Proof.
    intros H. unfold shown. destruct (R_token IDENT _ _ eq_refl H); [|assumption].
    destruct (R_token KEYWORD _ _ eq_refl H); assumption.
  Qed.
  Lemma SM_to_node s s' : In s (symbols tb) -> In s' (symbols tb') -> SymM s s' ->
    exists n n', RN n n' /\ to_node tree (s_key s) = Some n /\ to_node tree' (s_key s') = Some n'.
  Proof.
    intros I1 I2 H. destruct (SM_node _ _ H) as (n & n' & Hn & E & E' & _). pose proof (RN_node' _ _ Hn) as N'.
    destruct (raw_pointable src s I1) as (x & (P1 & P2 & P3 & P4) & Ex). destruct (raw_pointable src' s' I2) as (x' & (P1' & P2' & P3' & P4') & Ex').
    assert (x = n) as -> by (apply (key_inj src); auto; [apply Hn|apply Hn|congruence]).
    assert (x' = n') as -> by (apply (key_inj src'); auto; [apply Hn|congruence]).
    exists n, n'. split; [exact Hn|]. rewrite E, E'. split; now apply to_node_ok.
  Qed.
  (** Symbols of the two tables. *)
  Definition SymT (s s' : symbol) : Prop := SymM s s' /\ In s (symbols tb) /\ In s' (symbols tb').
  Lemma SymT_to_node s s' : SymT s s' -> OptR RN (to_node tree (s_key s)) (to_node tree' (s_key s')).
  Proof. intros (H & I1 & I2). destruct (SM_to_node _ _ I1 I2 H) as (n & n' & Hn & -> & ->). now constructor. Qed.
  Lemma F2_T l l' : Forall2 SymM l l' -> incl l (symbols tb) -> incl l' (symbols tb') -> Forall2 SymT l l'.
  Proof. intros H I1 I2. now apply F2_in_and. Qed.
  Lemma A_location s s' : SymT s s' -> AnsR SameP (create_location src s) (create_location src' s').
  Proof.
    intros H. unfold create_location. eapply AR_bind; [apply AR_must, SymT_to_node, H|].
    intros n n' [Hn _]. fold (shown n) (shown n'). now apply A_range, R_shown.
  Qed.

  Lemma in_find_key x k s : find_key (the_table x) k = Some s -> In s (symbols (the_table x)).
  Proof. intros H. now apply find_some in H. Qed.
  Lemma in_find_defs x k l : find_defs (the_table x) k = Some l -> incl l (symbols (the_table x)).
  Proof.
    unfold find_defs. destruct find_key as [r|]; [|discriminate]. destruct def_kind as [dk|]; [|discriminate]. intros H. injection H as <-.
    intros s Hs. now apply filter_In in Hs.
  Qed.
  Lemma in_find_local x k s : find_param_or_local_def (the_table x) k = Some s -> In s (symbols (the_table x)).
  Proof. unfold find_param_or_local_def. destruct find_local_ref; [|discriminate]. intros H. now apply find_some in H. Qed.
  Lemma in_find_block x k s : find_block_def (the_table x) k = Some s -> In s (symbols (the_table x)).
  Proof.
    unfold find_block_def. destruct find_block_ref; [|discriminate]. destruct find as [[[? ?] ?]|]; [|discriminate]. apply in_find_key.
  Qed.
  Lemma in_listed x incl_ c l : In c (symbols (the_table x)) -> listed incl_ (the_table x) c = Some l -> incl l (symbols (the_table x)).
  Proof.
    intros Hc H s Hs. unfold listed in H.
    assert (HB : forall d, In d (symbols (the_table x)) -> In s (block_refs incl_ (the_table x) d) -> In s (symbols (the_table x))).
    { intros d Hd HI. unfold block_refs in HI. apply in_app_or in HI as [HI|HI].
      - destruct incl_; [|destruct HI]. destruct HI as [<-|[]]. exact Hd.
      - apply in_flat_map in HI as ([[rk dk] i] & _ & HI). destruct key_eqb; [|destruct HI].
        destruct find_key eqn:F; [|destruct HI]. destruct HI as [<-|[]]. now apply in_find_key in F. }
    destruct (s_kind c); cbn [refs_kind def_kind] in H; try discriminate H;
      try (injection H as <-; now apply filter_In in Hs);
      try (destruct find_defs; [|discriminate H]; injection H as <-; now apply filter_In in Hs).
    - destruct find_param_or_local_def; [|discriminate H]. injection H as <-. now apply filter_In in Hs.
    - injection H as <-. now apply HB in Hs.
    - destruct find_block_def eqn:F; [|discriminate H]. injection H as <-. apply HB in Hs; [exact Hs|]. now apply in_find_block in F.
  Qed.
  Lemma T_find_key k k' : KM k k' -> OptR SymT (find_key tb k) (find_key tb' k').
  Proof.
    intros H. pose proof (Q_find_key _ _ H) as HQ. destruct (find_key tb k) eqn:E, (find_key tb' k') eqn:E'; inversion HQ; subst; constructor.
    split; [assumption|]. apply in_find_key in E, E'. auto.
  Qed.
  Lemma T_find_defs k k' : KM k k' -> OptR (Forall2 SymT) (find_defs tb k) (find_defs tb' k').
  Proof.
    intros H. pose proof (Q_find_defs _ _ H) as HQ. destruct (find_defs tb k) eqn:E, (find_defs tb' k') eqn:E'; inversion HQ; subst; constructor.
    apply in_find_defs in E, E'. now apply F2_T.
  Qed.
  Lemma T_find_local k k' : KM k k' -> OptR SymT (find_param_or_local_def tb k) (find_param_or_local_def tb' k').
  Proof.
    intros H. pose proof (Q_find_local _ _ H) as HQ.
    destruct (find_param_or_local_def tb k) eqn:E, (find_param_or_local_def tb' k') eqn:E'; inversion HQ; subst; constructor.
    split; [assumption|]. apply in_find_local in E, E'. auto.
  Qed.
  Lemma T_find_block k k' : KM k k' -> OptR SymT (find_block_def tb k) (find_block_def tb' k').
  Proof.
    intros H. pose proof (Q_find_block _ _ H) as HQ.
    destruct (find_block_def tb k) eqn:E, (find_block_def tb' k') eqn:E'; inversion HQ; subst; constructor.
    split; [assumption|]. apply in_find_block in E, E'. auto.
  Qed.

  Notation SameResponse := (SameResponse src src').
  Variables (pos pos' : lsp_pos) (t t' : elem).
  Hypothesis (Hc : CursorOn src pos t) (Hc' : CursorOn src' pos' t') (Ht : R t t').

  Lemma A_goto_definition : AnsR SameResponse (goto_definition src pos) (goto_definition src' pos').
  Proof.
    unfold goto_definition, cursor_token. rewrite Hc, Hc'. cbn [abind]. rewrite !the_symbols_eq.
    eapply AR_bind; [apply AR_opt, RN_parent, Ht|]. intros p p' Hp. rewrite <- (RN_kind _ _ Hp).
    destruct (_ || _); [|constructor]. cbn [abind]. pose proof (RN_key _ _ Hp) as HK.
    destruct (T_find_local _ _ HK) as [|s s' Hs].
    - destruct (T_find_defs _ _ HK) as [|l l' Hl].
      + destruct (T_find_block _ _ HK) as [|s s' Hs]; [constructor|].
        eapply AR_bind; [apply A_location, Hs|]. intros. constructor. now constructor.
      + eapply AR_bind; [eapply AR_map; [apply A_location|exact Hl]|]. intros. constructor. now constructor.
    - eapply AR_bind; [apply A_location, Hs|]. intros. constructor. now constructor.
  Qed.
  Lemma A_goto_declaration : AnsR SameResponse (goto_declaration src pos) (goto_declaration src' pos').
  Proof.
    unfold goto_declaration, cursor_token. rewrite Hc, Hc', !the_symbols_eq. cbn [abind].
    eapply AR_bind; [apply AR_opt, RN_parent, Ht|]. intros p p' Hp. rewrite <- (RN_kind _ _ Hp).
    destruct kind_eqb; [|constructor]. destruct (T_find_defs _ _ (RN_key _ _ Hp)) as [|l l' Hl]; [constructor|].
    eapply AR_bind; [eapply AR_map; [apply A_location|exact Hl]|]. intros. constructor. now constructor.
  Qed.
  Lemma A_type_of_def s s' : SymT s s' -> AnsR (Forall2 SymT) (type_of_def src tb s) (type_of_def src' tb' s').
  Proof.
    intros H. unfold type_of_def. eapply AR_bind; [apply AR_must, SymT_to_node, H|]. intros n n' [Hn _].
    destruct (RN_child TYPE_USE _ _ Hn) as [|u u' [Hu _]]; [repeat constructor|].
    destruct (RN_child INDEX _ _ Hu) as [|i i' Hi]; [repeat constructor|].
    destruct (T_find_defs _ _ (RN_key _ _ Hi)); [repeat constructor|]. now constructor.
  Qed.
  Lemma A_goto_type_definition : AnsR SameResponse (goto_type_definition src pos) (goto_type_definition src' pos').
  Proof.
    unfold goto_type_definition, cursor_token. rewrite Hc, Hc', !the_symbols_eq. cbn [abind].
    eapply AR_bind; [apply AR_opt, RN_parent, Ht|]. intros p p' Hp. rewrite <- (RN_kind _ _ Hp).
    destruct (_ || _); [|constructor]. eapply AR_bind; [apply AR_opt, RN_parent, Hp|]. intros g g' Hg. rewrite <- (RN_kind _ _ Hg).
    destruct kind_eqb; [|constructor]. destruct (T_find_defs _ _ (RN_key _ _ Hp)) as [|l l' Hl]; [constructor|].
    eapply AR_bind; [eapply AR_map; [apply A_type_of_def|exact Hl]|]. intros ls ls' Hls.
    eapply AR_bind; [eapply AR_map; [apply A_location|apply F2_concat; exact Hls]|]. intros. constructor. now constructor.
  Qed.
  Lemma A_find_references incl : AnsR (Forall2 SameP) (find_references src pos incl) (find_references src' pos' incl).
  Proof.
    unfold find_references, cursor_token. rewrite Hc, Hc', !the_symbols_eq. cbn [abind]. rewrite <- (R_kind _ _ Ht).
    destruct ref_token_kind; [|constructor].
    eapply AR_bind; [apply AR_opt, RN_parent, Ht|]. intros p p' Hp.
    eapply AR_bind; [apply AR_opt, T_find_key, RN_key, Hp|]. intros c c' (Hcc & I1 & I2).
    pose proof (Q_listed incl _ _ Hcc) as HQ.
    destruct (listed incl tb c) eqn:E, (listed incl tb' c') eqn:E'; inversion HQ; subst; cbn [aopt abind]; [|constructor].
    eapply AR_map; [apply A_location|]. apply F2_T; [assumption| |]; eapply in_listed; eauto.
  Qed.
End Alike.
