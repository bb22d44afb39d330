(** Labels: the symbol table always gets built, and what its [blocks] are. *)

From Coq Require Import String List NArith Bool Arith Lia.
From Verif Require Import Text Kind Green SpecParser Lexer LexerFacts Winnow Grammar Sem Lossless Total
  Bounds Lang TokForm Shape Red Unique Cursor Doc Ast Binder Preorder SpecBinder BinderFacts BinderDefs.
Import ListNotations.

Definition block_symbol (p b : elem) : symbol :=
  mk_symbol (key_of b) (el b) (key_of p) SBlockDef (mk_idx (Some 0%N) (ident_of b)).
Definition level (x : N * elem) : key * idx :=
  (key_of (snd x), mk_idx (Some (fst x)) (ident_of (snd x))).
Definition levels (lv : N) (b : elem) : list (key * idx) := map level (enum lv (while_block (ancestors b))).
Definition chain_at (e : elem) : list (key * idx) :=
  match enclosing block_kinds e with Some b => levels 0 b | None => [] end.
Definition node_blocks (id : N) (e : elem) : list (key * key * idx) :=
  if is_br e then flat_map (fun s => map (fun p => (s_key s, fst p, snd p)) (chain_at e)) (node_symbols id e)
  else [].

Lemma is_block_kinds e : is_block e = true <-> In (ekind e) block_kinds.
Proof.
  unfold is_block. fold block_kinds. rewrite existsb_exists. split.
  - intros (k & Hk & E). apply kind_eqb_eq in E. congruence.
  - intros H. exists (ekind e). split; [exact H|now apply kind_eqb_eq].
Qed.

Section Doc.
  Variable src : text.
  Notation tree := (tree_of src).
  Notation nodes := (nodes src).

  Lemma block_node_symbols b id p : ekind b = BLOCK_BLOCK \/ ekind b = BLOCK_LOOP \/ ekind b = BLOCK_IF ->
    parent b = Some p -> node_symbols id b = [block_symbol p b].
  Proof.
    intros K Hp. unfold node_symbols, parent_based.
    destruct K as [->|[->| ->]]; rewrite Hp; reflexivity.
  Qed.
  Lemma block_parent b : InTree tree b -> is_node b = true -> is_block b = true ->
    exists p, parent b = Some p /\ In b (children p) /\ InTree tree p /\ is_node p = true.
  Proof.
    intros T N B. destruct (parent_ex _ _ T N) as [->|(p & Tp & Np & Hc & Pp)]; [|eauto 6].
    apply is_block_kinds in B. rewrite (root_kind src) in B. cbn in B. intuition discriminate.
  Qed.
  Lemma block_kind b : is_block b = true -> ekind b = BLOCK_BLOCK \/ ekind b = BLOCK_LOOP \/ ekind b = BLOCK_IF.
  Proof. intros B. apply is_block_kinds in B. cbn in B. intuition congruence. Qed.

  Lemma block_symbol_in b p : InTree tree b -> is_node b = true -> is_block b = true -> parent b = Some p ->
    In (block_symbol p b) (raw_symbols nodes).
  Proof.
    intros T N B Hp. destruct (nodes_ex src b T N) as (id & Hid). apply raw_in. exists id, b.
    split; [exact Hid|]. rewrite (block_node_symbols b id p); [now left|now apply block_kind|exact Hp].
  Qed.

  (** A block symbol belongs to a block. *)
  Lemma block_def_out s : In s (raw_symbols nodes) -> s_kind s = SBlockDef ->
    exists b p, InTree tree b /\ is_node b = true /\ is_block b = true /\ parent b = Some p /\ s = block_symbol p b.
  Proof.
    intros Hs K. apply raw_in in Hs as (id & e & He & Hs). apply nodes_in in He as [Te Ne].
    destruct (is_block e) eqn:B.
    - destruct (block_parent _ Te Ne B) as (p & Pp & _ & _).
      rewrite (block_node_symbols e id p) in Hs; [|now apply block_kind|exact Pp].
      destruct Hs as [<-|[]]. exists e, p. auto.
    - exfalso. unfold node_symbols in Hs. unfold is_block in B.
      destruct (ekind e) eqn:Ke; try discriminate B; try destruct Hs;
        try (apply index_ref_kind in Hs; congruence); try (apply parent_based_kind in Hs; congruence);
        try (unfold import_desc_based in Hs; destruct (parent e) as [p|]; [|destruct Hs];
             destruct (parent p); [|destruct Hs]; destruct Hs as [<-|[]]; discriminate).
      + apply instr_symbols_kind in Hs. rewrite K in Hs. cbn in Hs. intuition discriminate.
      + destruct (parent e); [|destruct Hs]. destruct Hs as [<-|[]]. discriminate.
      + apply in_app_or in Hs as [Hs|Hs]; [apply parent_based_kind in Hs; congruence|].
        apply in_app_or in Hs as [Hs|Hs]; apply number_slots_kind in Hs; congruence.
  Qed.

  Lemma find_block syms b : incl syms (raw_symbols nodes) -> InTree tree b -> is_node b = true ->
    (forall a p, Desc a b -> InTree tree a -> is_node a = true -> is_block a = true -> parent a = Some p ->
                 In (block_symbol p a) syms) ->
    find (is_block_def (key_of b)) syms
    = if is_block b then match parent b with Some p => Some (block_symbol p b) | None => None end else None.
  Proof.
    intros Hi T N Ha. destruct (is_block b) eqn:B.
    - destruct (block_parent _ T N B) as (p & Pp & _ & _). rewrite Pp. apply find_unique.
      + apply Ha; auto. constructor.
      + unfold is_block_def. cbn. now rewrite key_eqb_refl.
      + intros y Hy E. unfold is_block_def in E. apply andb_prop in E as [_ E]. apply key_eqb_eq in E.
        apply (raw_key_inj src); [now apply Hi|apply Hi, Ha; auto; constructor|exact E].
    - apply find_absent. intros y Hy. apply not_true_iff_false. intros E. unfold is_block_def in E.
      apply andb_prop in E as [E1 E2]. apply key_eqb_eq in E2. apply skind_eqb_eq in E1.
      destruct (block_def_out y (Hi _ Hy) E1) as (b' & p & T' & N' & B' & _ & ->). cbn in E2.
      assert (b' = b) by (apply (key_inj src); auto). congruence.
  Qed.

  Lemma block_chain_spec syms b : incl syms (raw_symbols nodes) -> InTree tree b -> is_node b = true ->
    (forall a p, Desc a b -> InTree tree a -> is_node a = true -> is_block a = true -> parent a = Some p ->
                 In (block_symbol p a) syms) ->
    forall lv fuel, length (ups b) < fuel -> block_chain fuel syms (key_of b) lv = Some (levels lv b).
  Proof.
    intros Hi T. induction T as [|p c T IH Hc]; intros N Ha lv fuel Hf.
    - assert (is_block (root_of tree) = false) as B.
      { unfold is_block. rewrite (root_kind src). reflexivity. }
      destruct fuel; cbn [block_chain]; rewrite (find_block _ _ Hi) by (auto; constructor); rewrite B.
      all: unfold levels, ancestors; cbn [while_block]; rewrite B; reflexivity.
    - assert (Tc : InTree tree c) by (econstructor; eauto).
      assert (Np : is_node p = true).
      { unfold is_node. unfold children_with_tokens in Hc. destruct (el p); [destruct Hc|reflexivity]. }
      destruct fuel as [|fuel]; [lia|]. cbn [block_chain]. rewrite (find_block _ _ Hi Tc N Ha).
      unfold levels. rewrite (ancestors_child _ _ Hc). cbn [while_block].
      destruct (is_block c) eqn:B; [|reflexivity].
      rewrite (parent_child _ _ Hc). cbn [block_symbol s_region].
      rewrite (IH Np).
      + reflexivity.
      + intros a q Da. apply Ha. econstructor; eauto.
      + apply child_depth in Hc. lia.
  Qed.

  Lemma br_symbols id e : is_br e = true -> node_symbols id e = refs_in block_kinds e SBlockRef.
  Proof.
    unfold is_br. intros H. apply andb_prop in H as [K H]. apply kind_eqb_eq in K.
    unfold node_symbols. rewrite K. unfold instr_symbols. destruct (instr_name_of e) as [t|]; [|discriminate].
    destruct (names_disjoint t) as (_ & _ & _ & D & _). destruct (D H) as (-> & -> & -> & _). now rewrite H.
  Qed.
  Lemma br_region id e s : is_br e = true -> In s (node_symbols id e) ->
    exists b, enclosing block_kinds e = Some b /\ s_region s = key_of b.
  Proof.
    intros H Hs. rewrite br_symbols in Hs by exact H. unfold refs_in in Hs.
    destruct (enclosing block_kinds e) as [b|]; [|destruct Hs]. exists b. split; [reflexivity|].
    apply in_flat_map in Hs as (n & _ & Hs). apply in_ref_symbol in Hs as (i & _ & ->). reflexivity.
  Qed.

  Lemma br_loop_spec fuel e b refs : InTree tree e -> is_node e = true -> enclosing block_kinds e = Some b ->
    length (ups e) < fuel -> ekind e = PLAIN_INSTR ->
    forall syms bl,
    incl (syms ++ refs) (raw_symbols nodes) ->
    (forall a p, Desc a e -> a <> e -> InTree tree a -> is_node a = true -> is_block a = true -> parent a = Some p ->
                 In (block_symbol p a) syms) ->
    (forall s, In s refs -> s_region s = key_of b) ->
    br_loop fuel syms bl refs
    = Some (syms ++ refs, bl ++ flat_map (fun s => map (fun p => (s_key s, fst p, snd p)) (levels 0 b)) refs).
  Proof.
    intros Te Ne Hb Hf Ke. induction refs as [|s refs IH]; intros syms bl Hi Ha Hr; cbn [br_loop flat_map].
    - now rewrite !app_nil_r.
    - apply enclosing_some in Hb as [Hin Kb].
      destruct (ancestor_node src _ _ Te Ne Hin) as (Tb & Db & Nb).
      assert (Hbe : b <> e) by (intros ->; rewrite Ke in Kb; cbn in Kb; intuition discriminate).
      assert (Hlen : length (ups b) < length (ups e)) by (apply Desc_depth in Db as [X|X]; [congruence|exact X]).
      rewrite (Hr s) by now left.
      rewrite block_chain_spec; auto.
      + rewrite IH; auto.
        * now rewrite <- !app_assoc.
        * rewrite <- app_assoc. exact Hi.
        * intros a p D N. intros. apply in_or_app. left. eapply Ha; eauto.
        * intros x Hx. apply Hr. now right.
      + intros x Hx. apply Hi. apply in_app_or in Hx as [Hx|[<-|[]]]; apply in_or_app; [now left|right; now left].
      + intros a p D Ta Na Ba Pa. apply in_or_app. left. eapply Ha; eauto.
        * eapply Desc_trans; eassumption.
        * intros ->. apply Hbe. now apply Desc_antisym.
      + lia.
  Qed.

  Lemma scan_total post : forall pre id bl,
    descendants (root_of tree) = pre ++ post -> id = last_id 0 pre ->
    exists tb, scan id (raw_symbols (number 0 pre)) bl post = Some tb
      /\ blocks tb = bl ++ flat_map (fun p => node_blocks (fst p) (snd p)) (number id post).
  Proof.
    induction post as [|e post IH]; intros pre id bl E Eid; cbn [scan number flat_map].
    - eexists. split; [reflexivity|]. cbn. now rewrite app_nil_r.
    - assert (He : In e (descendants (root_of tree))) by (rewrite E; apply in_elt).
      apply in_descendants in He as [Te Ne].
      assert (Enodes : nodes = number 0 pre ++ (id, e) :: number (next_id id e) post).
      { unfold BinderFacts.nodes. rewrite E, number_app, <- Eid. reflexivity. }
      assert (Enext : next_id id e = last_id 0 (pre ++ [e])).
      { unfold last_id. rewrite fold_left_app. cbn. unfold last_id in Eid. now rewrite Eid. }
      assert (Eraw : raw_symbols (number 0 pre) ++ node_symbols id e = raw_symbols (number 0 (pre ++ [e]))).
      { rewrite number_app, <- Eid. cbn. unfold raw_symbols. rewrite flat_map_app. cbn. now rewrite app_nil_r. }
      destruct (IH (pre ++ [e]) (next_id id e)
                  (bl ++ node_blocks id e)) as (tb & H1 & H2).
      { rewrite <- app_assoc. exact E. }
      { exact Enext. }
      exists tb. cbn [fst snd]. rewrite app_assoc. split; [|exact H2]. rewrite <- H1. clear H1 H2 IH.
      destruct (is_br e) eqn:B.
      + assert (Ke : ekind e = PLAIN_INSTR).
        { unfold is_br in B. apply andb_prop in B as [K _]. now apply kind_eqb_eq in K. }
        unfold node_blocks. rewrite B. unfold chain_at.
        destruct (enclosing block_kinds e) as [b|] eqn:Eb.
        * rewrite (br_loop_spec _ e b); auto.
          -- rewrite Eraw. reflexivity.
          -- intros s Hs. rewrite Enodes. unfold raw_symbols. rewrite flat_map_app. cbn [flat_map fst snd].
             apply in_app_or in Hs as [Hs|Hs]; apply in_or_app; [now left|]. right. apply in_or_app. now left.
          -- intros a p D Hne Ta Na Ba Pa.
             assert (Hpre : In a pre) by (eapply preorder_ancestor; eauto).
             destruct (in_number_ex 0 pre a Hpre) as (i & Hi). unfold raw_symbols. apply in_flat_map.
             exists (i, a). split; [exact Hi|]. cbn [fst snd].
             rewrite (block_node_symbols a i p); [now left|now apply block_kind|exact Pa].
          -- intros s Hs. destruct (br_region _ _ _ B Hs) as (b' & E1 & E2). congruence.
        * assert (Hn : node_symbols id e = []).
          { rewrite br_symbols by exact B. unfold refs_in. now rewrite Eb. }
          rewrite Hn in *. cbn [br_loop flat_map]. rewrite !app_nil_r in *. rewrite Eraw. reflexivity.
      + unfold node_blocks. rewrite B, app_nil_r, Eraw. reflexivity.
  Qed.

  Definition the_table : table := mk_table (raw_symbols nodes)
    (flat_map (fun p => node_blocks (fst p) (snd p)) nodes).

  Lemma table_spec : create_symbol_table tree = Some the_table.
  Proof.
    destruct (scan_total (descendants (root_of tree)) [] 0%N [] eq_refl eq_refl) as (tb & H1 & H2).
    unfold create_symbol_table. cbn [number raw_symbols flat_map] in H1. rewrite H1. f_equal.
    apply scan_symbols in H1. cbn [app] in H1, H2. unfold the_table, nodes. destruct tb as [sy bl].
    cbn [symbols blocks] in *. subst. reflexivity.
  Qed.

  (** The labels listed for one reference. *)
  Lemma filter_blocks n p b : InTree tree n -> is_node n = true -> parent n = Some p -> is_br p = true ->
    ref_idx n <> None -> enclosing block_kinds n = Some b ->
    filter (fun t => key_eqb (key_of n) (fst (fst t))) (blocks the_table)
    = map (fun q => (key_of n, fst q, snd q)) (levels 0 b).
  Proof.
    intros Tn Nn Pn Bp Hi Hb.
    destruct (parent_children src _ _ Tn Nn Pn) as (Tp & Np & Hc).
    assert (Kp : ekind p = PLAIN_INSTR).
    { unfold is_br in Bp. apply andb_prop in Bp as [K _]. now apply kind_eqb_eq in K. }
    assert (Hb' : enclosing block_kinds p = Some b).
    { rewrite <- (enclosing_operand src block_kinds n p); auto. cbn. intuition discriminate. }
    destruct (nodes_ex src p Tp Np) as (id & Hid). cbn [the_table blocks]. rewrite filter_flat_map.
    apply in_split in Hid as (l1 & l2 & E).
    assert (Hkey : forall e l r, InTree tree e -> is_node e = true -> l = children e ->
              forall c, In c l -> key_eqb (key_of n) (key_of c) = true -> r = e -> c = n /\ r = p).
    { intros e l r Te Ne -> c Hcc Ek ->. apply key_eqb_eq in Ek.
      assert (c = n).
      { symmetry. apply (key_inj src); auto; [now apply (in_tree_child src) with e|now apply child_node with e]. }
      split; [exact H|]. subst c. apply children_parent in Hcc. congruence. }
    assert (Hrefs : forall (l : list elem) r lv, (forall c, In c l -> key_eqb (key_of n) (key_of c) = false) ->
       filter (fun t : key * key * idx => key_eqb (key_of n) (fst (fst t)))
         (flat_map (fun s => map (fun q : key * idx => (s_key s, fst q, snd q)) lv) (flat_map (ref_symbol r SBlockRef) l)) = []).
    { intros l r lv Hl. apply filter_none. intros t Ht. apply in_flat_map in Ht as (s & Hs & Ht).
      apply in_flat_map in Hs as (c & Hcl & Hs). apply in_ref_symbol in Hs as (i & _ & ->).
      apply in_map_iff in Ht as (q & <- & _). cbn. now apply Hl. }
    rewrite E, (BinderDefs.flat_map_one _ l1 (id, p) l2).
    - cbn [fst snd]. unfold node_blocks. rewrite Bp. rewrite br_symbols by exact Bp. unfold refs_in, chain_at. rewrite Hb'.
      apply in_split in Hc as Hs. destruct Hs as (c1 & c2 & Ec). rewrite Ec.
      assert (Hnd : NoDup (children p)) by apply NoDup_filter, children_nodup.
      assert (Hother : forall c, In c c1 \/ In c c2 -> key_eqb (key_of n) (key_of c) = false).
      { intros c Hcc. apply not_true_iff_false. intros Ek.
        destruct (Hkey p (children p) p Tp Np eq_refl c) as [-> _]; auto.
        - rewrite Ec. apply in_or_app. cbn. tauto.
        - rewrite Ec in Hnd. apply NoDup_remove_2 in Hnd. apply Hnd. apply in_or_app. tauto. }
      rewrite flat_map_app. cbn [flat_map]. rewrite !flat_map_app, !filter_app.
      rewrite (Hrefs c1) by (intros; apply Hother; auto). rewrite (Hrefs c2) by (intros; apply Hother; auto).
      rewrite app_nil_r. cbn [app]. unfold ref_symbol. destruct (ref_idx n); [|congruence].
      cbn [flat_map s_key app]. rewrite app_nil_r. apply filter_all.
      intros t Ht. apply in_map_iff in Ht as (q & <- & _). cbn. apply key_eqb_refl.
    - assert (Hout : forall y, In y l1 \/ In y l2 -> filter (fun t : key * key * idx => key_eqb (key_of n) (fst (fst t))) (node_blocks (fst y) (snd y)) = []).
      { intros (i & e) Hy. cbn [fst snd].
        assert (Hin : In (i, e) nodes) by (rewrite E; apply in_or_app; cbn; tauto).
        destruct (nodes_in _ _ _ Hin) as [Te Ne].
        assert (Hep : e <> p).
        { intros ->. assert (Hnd : NoDup (map snd nodes)) by (unfold BinderFacts.nodes; rewrite number_snd; apply descendants_nodup).
          rewrite E, map_app in Hnd. cbn in Hnd. apply NoDup_remove_2 in Hnd. apply Hnd. apply in_or_app.
          destruct Hy as [Hy|Hy]; [left|right]; apply in_map_iff; eexists; (split; [|exact Hy]); reflexivity. }
        unfold node_blocks. destruct (is_br e) eqn:Be; [|reflexivity]. rewrite br_symbols by exact Be.
        unfold refs_in. destruct (enclosing block_kinds e); [|reflexivity]. apply Hrefs.
        intros c Hcc. apply not_true_iff_false. intros Ek.
        destruct (Hkey e (children e) e Te Ne eq_refl c Hcc Ek eq_refl) as [_ X]. contradiction. }
      intros y Hy. apply Hout. now left.
    - assert (Hout : forall y, In y l1 \/ In y l2 -> filter (fun t : key * key * idx => key_eqb (key_of n) (fst (fst t))) (node_blocks (fst y) (snd y)) = []).
      { intros (i & e) Hy. cbn [fst snd].
        assert (Hin : In (i, e) nodes) by (rewrite E; apply in_or_app; cbn; tauto).
        destruct (nodes_in _ _ _ Hin) as [Te Ne].
        assert (Hep : e <> p).
        { intros ->. assert (Hnd : NoDup (map snd nodes)) by (unfold BinderFacts.nodes; rewrite number_snd; apply descendants_nodup).
          rewrite E, map_app in Hnd. cbn in Hnd. apply NoDup_remove_2 in Hnd. apply Hnd. apply in_or_app.
          destruct Hy as [Hy|Hy]; [left|right]; apply in_map_iff; eexists; (split; [|exact Hy]); reflexivity. }
        unfold node_blocks. destruct (is_br e) eqn:Be; [|reflexivity]. rewrite br_symbols by exact Be.
        unfold refs_in. destruct (enclosing block_kinds e); [|reflexivity]. apply Hrefs.
        intros c Hcc. apply not_true_iff_false. intros Ek.
        destruct (Hkey e (children e) e Te Ne eq_refl c Hcc Ek eq_refl) as [_ X]. contradiction. }
      intros y Hy. apply Hout. now right.
  Qed.
End Doc.
