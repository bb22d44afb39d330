(** Every symbol of the table is a module, a definition of a module, a
    parameter or local of a function, a block, or a reference. *)

From Coq Require Import String List NArith Bool Arith Lia.
From Verif Require Import Text Kind Green SpecParser Lexer LexerFacts Winnow Grammar Sem Lossless Total
  Bounds Lang TokForm Shape Red Unique LineIndex Cursor Doc Ast Binder Preorder SpecBinder BinderFacts BinderDefs Blocks
  Nav NavSpec NavFacts ThmNav RefFacts.
Import ListNotations.

Section Doc.
  Variable src : text.
  Notation tree := (tree_of src).
  Notation nodes := (nodes src).
  Notation tb := (the_table src).

  Inductive SymCase (s : symbol) : Prop :=
  | SC_module m : InTree tree m -> is_node m = true -> ekind m = MODULE ->
      s = mk_symbol (key_of m) (el m) (key_of (root_of tree)) SModule (mk_idx None None) -> SymCase s
  | SC_def m so i d : InTree tree m -> is_node m = true -> ekind m = MODULE ->
      In (i, d) (enum 0 (definitions m)) -> has_sort so d = true -> s = def_symbol m (sort_kind so) (i, d) -> SymCase s
  | SC_slot f i d : InTree tree f -> is_node f = true -> ekind f = MODULE_FIELD_FUNC ->
      In (i, d) (enum 0 (locals_space f)) -> s = local_symbol f (i, d) -> SymCase s
  | SC_block b p : InTree tree b -> is_node b = true -> is_block b = true -> parent b = Some p ->
      s = block_symbol p b -> SymCase s
  | SC_ref n a w e : InTree tree n -> is_node n = true -> Asks n a -> Written n w -> enclosing_of a n = Some e ->
      s = ref_sym n e a w -> SymCase s.

  Lemma slot_region id e s : In s (node_symbols id e) -> is_param_or_local s = true ->
    ekind e = MODULE_FIELD_FUNC /\ s_region s = key_of e.
  Proof.
    intros Hx E2.
    assert (Hk : forall l, (forall s, In s l -> In (s_kind s) [SFunc; SType; SGlobalDef; SMemoryDef; STableDef; SModule; SBlockDef; SCall; SLocalRef; STypeUse; SGlobalRef; SMemoryRef; STableRef; SBlockRef]) ->
              ~ In s l).
    { intros l Hl Hin. apply Hl in Hin. unfold is_param_or_local in E2.
      cbn [In] in Hin. repeat (destruct Hin as [Hin|Hin]; [rewrite <- Hin in E2; discriminate|]). destruct Hin. }
    unfold node_symbols in Hx. destruct (ekind e) eqn:K; try destruct Hx;
      try (exfalso; revert Hx; apply Hk; intros x Hs; apply index_ref_kind in Hs; rewrite Hs; cbn; tauto);
      try (exfalso; revert Hx; apply Hk; intros x Hs; apply parent_based_kind in Hs; rewrite Hs; cbn; tauto);
      try (exfalso; revert Hx; apply Hk; intros x Hs; unfold import_desc_based in Hs; destruct (parent e) as [p|]; [|destruct Hs];
           destruct (parent p); [|destruct Hs]; destruct Hs as [<-|[]]; cbn; tauto).
    - exfalso. revert Hx. apply Hk. intros x Hs. apply instr_symbols_kind in Hs. cbn in *. tauto.
    - exfalso. revert Hx. apply Hk. intros x Hs. destruct parent; [|destruct Hs]. destruct Hs as [<-|[]]. cbn. tauto.
    - split; [reflexivity|]. apply in_app_or in Hx as [Hx|Hx].
      + exfalso. revert Hx. apply Hk. intros x Hs. apply parent_based_kind in Hs. rewrite Hs. cbn. tauto.
      + apply in_app_or in Hx as [Hx|Hx]; apply in_number_slots in Hx as (d & j & _ & ->); reflexivity.
  Qed.
  Lemma module_symbol id e s : InTree tree e -> is_node e = true -> In s (node_symbols id e) -> s_kind s = SModule ->
    ekind e = MODULE /\ s = mk_symbol (key_of e) (el e) (key_of (root_of tree)) SModule (mk_idx None None).
  Proof.
    intros T N Hx K2. unfold node_symbols in Hx. destruct (ekind e) eqn:K; try destruct Hx;
      try (exfalso; apply index_ref_kind in Hx; congruence);
      try (exfalso; apply parent_based_kind in Hx; congruence);
      try (exfalso; unfold import_desc_based in Hx; destruct (parent e) as [p|]; [|destruct Hx];
           destruct (parent p); [|destruct Hx]; destruct Hx as [<-|[]]; discriminate).
    - exfalso. apply instr_symbols_kind in Hx. rewrite K2 in Hx. cbn in Hx. intuition discriminate.
    - split; [reflexivity|]. rewrite (module_parent src e) in Hx by assumption. destruct Hx as [<-|[]]. reflexivity.
    - exfalso. apply in_app_or in Hx as [Hx|Hx]; [apply parent_based_kind in Hx; congruence|].
      apply in_app_or in Hx as [Hx|Hx]; apply number_slots_kind in Hx; congruence.
  Qed.

  Lemma raw_cases s : In s (raw_symbols nodes) -> SymCase s.
  Proof.
    intros Hs. destruct (is_ref_kind s) eqn:R.
    { destruct (raw_ref_out src s Hs R) as (n & a & w & e & T & N & A & W & E & ->). eapply SC_ref; eauto. }
    pose proof Hs as Hraw. apply raw_in in Hraw as (id & e & He & Hin). destruct (nodes_in _ _ _ He) as [T N].
    destruct (is_def_kind s) eqn:D.
    { pose proof (node_defs src id e T N) as Hd.
      assert (Hf : In s (filter is_def_kind (node_symbols id e))) by now apply filter_In.
      destruct (def_sort e) as [so|].
      - destruct Hd as (m & Tm & Nm & Km & Dm & E). rewrite E in Hf. destruct Hf as [<-|[]].
        destruct (in_region_out src m so (def_symbol m (sort_kind so) (id, e)) Tm Nm Km Hs) as (i & d & H1 & H2 & H3);
          [reflexivity|reflexivity|]. eapply SC_def; eauto.
      - rewrite Hd in Hf. destruct Hf. }
    destruct (is_param_or_local s) eqn:L.
    { destruct (slot_region id e s Hin L) as [K Rg].
      destruct (slot_out src e s T N K Hs L Rg) as (i & d & H1 & H2). eapply SC_slot; eauto. }
    destruct (s_kind s) eqn:K; unfold is_ref_kind, is_def_kind, is_param_or_local in *; rewrite K in *; try discriminate.
    - destruct (module_symbol id e s T N Hin K) as [Km ->]. eapply SC_module; eauto.
    - destruct (block_def_out src s Hs K) as (b & p & Tb & Nb & Bb & Pb & ->). eapply SC_block; eauto.
  Qed.

  (** The region of a definition or module-level reference is its module,
      that of a parameter, local or local reference its function. *)
  Lemma module_not_func m f : InTree tree m -> InTree tree f -> is_node m = true -> is_node f = true ->
    ekind m = MODULE -> ekind f = MODULE_FIELD_FUNC -> key_of m <> key_of f.
  Proof. intros A B C D E F H. assert (m = f) by (apply (key_inj src); auto). congruence. Qed.
  Lemma enclosing_kind k n e : InTree tree n -> is_node n = true -> enclosing [k] n = Some e ->
    InTree tree e /\ is_node e = true /\ ekind e = k /\ Desc e n.
  Proof.
    intros T N E. apply enclosing_some in E as [Ea [Ek|[]]]. destruct (ancestor_node src _ _ T N Ea) as (A & B & C). auto.
  Qed.
End Doc.
