(** Rename: properties C21 and C22. *)

From Coq Require Import String List NArith Bool Arith Lia.
From Verif Require Import Text Kind Green SpecParser Lexer LexerFacts Winnow Grammar Sem Lossless Total
  Bounds Lang TokForm Shape Red Unique LineIndex Cursor Doc Ast Binder Preorder SpecBinder BinderFacts BinderDefs Blocks
  Nav NavSpec NavFacts ThmNav RefFacts SymCases TokKinds.
Import ListNotations.

(** ** Two tokens of a tree never overlap *)

Lemma tokens_disjoint src a b : InTree (tree_of src) a -> InTree (tree_of src) b -> is_node a = false -> is_node b = false ->
  a <> b -> eend a <= estart b \/ eend b <= estart a.
Proof.
  intros Ha Hb Na Nb Hab. destruct (Desc_cases _ _ _ Ha Hb) as [D|[D|D]].
  - exfalso. apply Desc_top in D as [D|(c & Hc & _)]; [auto|].
    unfold children_with_tokens in Hc. unfold is_node in Na. destruct (el a); [destruct Hc|discriminate].
  - exfalso. apply Desc_top in D as [D|(c & Hc & _)]; [auto|].
    unfold children_with_tokens in Hc. unfold is_node in Nb. destruct (el b); [destruct Hc|discriminate].
  - destruct D as (p & l & ga & m & gb & r & ca & cb & _ & _ & Ea & Eb & [[D1 D2]|[D1 D2]]);
      apply Desc_range in D1, D2; subst ca cb; unfold estart, eend in *; cbn [off el] in *;
      rewrite ?glens_app, ?glens_cons in *; lia.
Qed.

Section Doc.
  Variable src : text.
  Notation tree := (tree_of src).
  Notation nodes := (nodes src).
  Notation tb := (the_table src).

  Definition ident_token (n t : elem) : Prop := InTree tree n /\ is_node n = true /\ token n IDENT = Some t.

  Lemma ident_token_fun n n' t : ident_token n t -> ident_token n' t -> n = n'.
  Proof.
    intros (_ & _ & E) (_ & _ & E'). apply token_some in E as (E & _). apply token_some in E' as (E' & _).
    apply parent_child in E, E'. congruence.
  Qed.

  Lemma edit_tokens ss : NoDup ss -> (forall s, In s ss -> In s (raw_symbols nodes)) ->
    exists tss, map_ans (edit_token src) ss = Ans tss /\ NoDup (concat tss)
      /\ forall t, In t (concat tss) <-> exists s n, In s ss /\ stands src n s /\ ident_token n t.
  Proof.
    induction ss as [|s ss IH]; intros D H.
    - exists []. split; [reflexivity|]. split; [constructor|]. intros t. split; [intros []|intros (s & n & [] & _)].
    - inversion D as [|? ? D1 D2]; subst. destruct IH as (tss & E1 & E2 & E3); [exact D2|intros x Hx; apply H; now right|].
      assert (Hs : In s (raw_symbols nodes)) by (apply H; now left).
      destruct (raw_pointable src s Hs) as (n & (P1 & P2 & P3 & P4) & E).
      cbn [map_ans]. unfold edit_token at 1. rewrite E, to_node_ok by assumption. cbn [amust abind]. rewrite E1. cbn [abind].
      eexists. split; [reflexivity|]. cbn [concat]. split.
      + destruct (token n IDENT) as [t|] eqn:Et; [|exact E2]. cbn [app]. constructor; [|exact E2].
        intros Ht. apply E3 in Ht as (s' & n' & Hs' & St & It).
        assert (n = n') as <- by (apply (ident_token_fun n n' t); [split; auto|exact It]).
        destruct St as [St1 St2]. apply D1. replace s with s'; [exact Hs'|]. apply (raw_key_inj src); auto. congruence.
      + intros t. rewrite in_app_iff, E3. split.
        * intros [Ht|(s' & n' & Hs' & X)].
          -- exists s, n. split; [now left|]. split; [split; auto|]. split; [exact P1|]. split; [exact P2|].
             destruct (token n IDENT); [|destruct Ht]. destruct Ht as [<-|[]]. reflexivity.
          -- exists s', n'. split; [now right|exact X].
        * intros (s' & n' & [<-|Hs'] & St & It).
          -- left. destruct St as [_ St]. destruct It as (I1 & I2 & I3).
             assert (n' = n) as -> by (apply (key_inj src); auto; congruence). rewrite I3. now left.
          -- right. exists s', n'. auto.
  Qed.
  Lemma map_ranges ts : (forall t, In t ts -> InTree tree t) ->
    exists rs, map_ans (range_of src) ts = Ans rs /\ Forall2 (fun r t => RangeOf src t r) rs ts.
  Proof.
    induction ts as [|t ts IH]; intros H; cbn [map_ans].
    - exists []. split; [reflexivity|constructor].
    - destruct (range_of_ok src t) as (r & -> & Hr); [apply H; now left|].
      destruct IH as (rs & -> & F); [intros x Hx; apply H; now right|]. cbn [abind].
      exists (r :: rs). split; [reflexivity|]. constructor; auto.
  Qed.

  (** The edits of a successful rename. *)
  Definition EditsOf (new : text) (es : list (range * text)) (P : elem -> Prop) : Prop :=
    exists ts, NoDup ts /\ Forall2 (fun e t => RangeOf src t (fst e) /\ snd e = new) es ts
      /\ forall t, In t ts <-> exists n, ident_token n t /\ P n.

  Lemma rename_spec pos t p symbol new : valid_name new = true -> CursorOn src pos t -> ekind t = IDENT -> parent t = Some p ->
    stands src p symbol ->
    exists es, rename src pos new = Edits es
      /\ EditsOf new es (fun n => exists s, stands src n s /\ renamed tb (etext t) (key_of p) symbol s = true).
  Proof.
    intros V C K P St. unfold rename, cursor_token. rewrite V, C, K. cbn [kind_eqb].
    assert (Hk : kind_eqb IDENT IDENT = true) by reflexivity. rewrite Hk. clear Hk.
    unfold rename_impl. rewrite symbols_spec. cbn [abind]. rewrite P. cbn [aopt abind].
    rewrite (find_key_stands src p symbol St). cbn [aopt abind].
    set (ss := filter (renamed tb (etext t) (key_of p) symbol) (symbols tb)).
    destruct (edit_tokens ss) as (tss & E1 & E2 & E3).
    { apply NoDup_filter. apply raw_nodup. }
    { intros s Hs. now apply filter_In in Hs. }
    rewrite E1. cbn [abind].
    destruct (map_ranges (concat tss)) as (rs & -> & F).
    { intros x Hx. apply E3 in Hx as (s & n & _ & _ & (T & _ & E)). eapply (token_in_tree src); eauto. }
    eexists. split; [reflexivity|]. exists (concat tss). split; [exact E2|]. split.
    - apply Forall2_map_l. clear - F. induction F; constructor; auto.
    - intros x. rewrite E3. split.
      + intros (s & n & Hs & Stn & It). exists n. split; [exact It|]. exists s. split; [exact Stn|].
        unfold ss in Hs. now apply filter_In in Hs.
      + intros (n & It & s & Stn & Hr). exists s, n. split; [|auto]. apply filter_In. split; [apply Stn|exact Hr].
  Qed.
End Doc.

(** ** C22 *)

(** A name is a dollar sign followed by at least one identifier character. *)
Definition ValidName (x : text) : Prop := exists c r, x = c_dollar :: c :: r /\ Forall (fun c => is_id_char c = true) (c :: r).
Lemma valid_name_iff x : valid_name x = true <-> ValidName x.
Proof.
  unfold valid_name, ValidName. destruct x as [|a [|c r]].
  - split; [discriminate|intros (c & r & E & _); discriminate].
  - rewrite andb_false_r. split; [discriminate|intros (c & r & E & _); discriminate].
  - cbn [negb]. rewrite andb_true_r, andb_true_iff, N.eqb_eq, forallb_forall. split.
    + intros [-> H]. exists c, r. split; [reflexivity|]. now apply Forall_forall.
    + intros (c' & r' & E & H). injection E as -> -> ->. split; [reflexivity|]. now apply Forall_forall.
Qed.
Theorem C22_invalid_name_refused src pos new : ~ ValidName new <-> rename src pos new = InvalidName.
Proof.
  rewrite <- valid_name_iff. unfold rename. destruct (valid_name new).
  - split; [intros H; now destruct H|]. destruct (cursor_token src pos) as [t| |]; try discriminate.
    destruct (kind_eqb (ekind t) IDENT); [|discriminate]. destruct (rename_impl src t); discriminate.
  - split; [reflexivity|discriminate].
Qed.

Theorem C22_valid_edits src pos new es : rename src pos new = Edits es ->
  ValidName new /\
  exists ts, NoDup ts
    /\ Forall (fun t => InTree (tree_of src) t /\ is_node t = false /\ ekind t = IDENT) ts
    /\ Forall2 (fun e t => RangeOf src t (fst e) /\ snd e = new) es ts
    /\ forall t t', In t ts -> In t' ts -> t <> t' -> eend t <= estart t' \/ eend t' <= estart t.
Proof.
  intros H. destruct (valid_name new) eqn:V; [|unfold rename in H; rewrite V in H; discriminate].
  split; [now apply valid_name_iff|]. pose proof H as H0.
  unfold rename in H. rewrite V in H. destruct (cursor_token src pos) as [t| |] eqn:C; try discriminate.
  destruct (kind_eqb (ekind t) IDENT) eqn:K; [|discriminate]. apply kind_eqb_eq in K.
  unfold rename_impl in H. rewrite symbols_spec in H. cbn [abind] in H.
  destruct (parent t) as [p|] eqn:P; cbn [aopt abind] in H; [|discriminate].
  destruct (find_key (the_table src) (key_of p)) as [s|] eqn:F; cbn [aopt abind] in H; [|discriminate].
  apply find_key_in in F.
  destruct (rename_spec src pos t p s new V C K P F) as (es' & E & ts & D & F2 & Hts). rewrite H0 in E. injection E as <-.
  assert (Hall : forall t, In t ts -> InTree (tree_of src) t /\ is_node t = false /\ ekind t = IDENT).
  { intros x Hx. apply Hts in Hx as (n & (T & _ & Ex) & _). split; [eapply token_in_tree; eauto|].
    apply token_some in Ex. tauto. }
  exists ts. split; [exact D|]. split; [now apply Forall_forall|]. split; [exact F2|].
  intros a b Ha Hb Hab. apply Hall in Ha as (A1 & A2 & _), Hb as (B1 & B2 & _).
  now apply (tokens_disjoint src).
Qed.

(** Only the lookup of the cursor can panic. *)
Theorem C22_panics_only_at_bad_positions src pos new :
  rename src pos new = RenamePanics <-> ValidName new /\ cursor_token src pos = Panics.
Proof.
  rewrite <- valid_name_iff. unfold rename. destruct (valid_name new) eqn:V; [|split; [discriminate|intros [? _]; discriminate]].
  destruct (cursor_token src pos) as [t| |] eqn:C; [|split; [discriminate|intros [_ ?]; discriminate]|tauto].
  split; [|intros [_ ?]; discriminate]. intros H. exfalso.
  destruct (kind_eqb (ekind t) IDENT) eqn:K; [|discriminate]. apply kind_eqb_eq in K.
  destruct (parent t) as [p|] eqn:P.
  2:{ unfold rename_impl in H. rewrite symbols_spec, P in H. discriminate. }
  destruct (find_key (the_table src) (key_of p)) as [s|] eqn:F.
  2:{ unfold rename_impl in H. rewrite symbols_spec, P in H. cbn [abind aopt] in H. rewrite F in H. discriminate. }
  apply find_key_in in F. destruct (rename_spec src pos t p s new V C K P F) as (es' & E & _).
  unfold rename in E. rewrite V, C, K in E. change (kind_eqb IDENT IDENT) with true in E. cbn iota in E. rewrite E in H. discriminate.
Qed.

(** ** C21 *)

(** [n] belongs to the name space of [e]: to a module belong its definitions
    and all module-level references in it, whatever their sort; to a function
    its parameters and locals and all references to parameters and locals. *)
Definition BelongsTo (e n : elem) : Prop :=
  (ekind e = MODULE /\ (In n (definitions e) \/ exists s w, Asks n (AModule s) /\ Written n w /\ in_module n e))
  \/ (ekind e = MODULE_FIELD_FUNC /\ (In n (locals_space e) \/ exists w, Asks n ALocal /\ Written n w /\ in_func n e)).

Section Doc.
  Variable src : text.
  Notation tree := (tree_of src).
  Notation nodes := (nodes src).
  Notation tb := (the_table src).

  Lemma stands_fun n s s' : stands src n s -> stands src n s' -> s = s'.
  Proof. intros [H E] [H' E']. apply (raw_key_inj src); auto. congruence. Qed.

  Definition is_regional (s : symbol) : bool :=
    match s_kind s with SModule | SBlockDef | SBlockRef => false | _ => true end.

  Lemma def_ex m d : In d (definitions m) -> exists so, has_sort so d = true.
  Proof.
    intros H. unfold definitions in H. apply filter_In in H as [_ H]. unfold is_def, has_sort in *.
    destruct (def_sort d) as [so|]; [|discriminate]. exists so. destruct (sort_eq_dec so so); congruence.
  Qed.

  Lemma belongs_in e n : InTree tree e -> is_node e = true -> InTree tree n -> is_node n = true -> BelongsTo e n ->
    exists s, stands src n s /\ is_regional s = true /\ s_region s = key_of e.
  Proof.
    intros Te Ne T N [[K [H|(so & w & A & W & M)]]|[K [H|(w & A & W & M)]]].
    - destruct (def_ex _ _ H) as (so & Hs).
      destruct (def_found src e so n Te Ne K) as (i & _ & _ & Hr).
      { unfold definitions_of. apply filter_In. split; [|exact Hs]. unfold definitions in H. now apply filter_In in H. }
      exists (def_symbol e (sort_kind so) (i, n)). split; [split; [exact Hr|reflexivity]|]. split; [destruct so; reflexivity|reflexivity].
    - exists (ref_sym n e (AModule so) w). split; [now apply module_ref_in|]. split; [destruct so; reflexivity|reflexivity].
    - destruct (slot_found src e n Te Ne K H) as (i & _ & Hr).
      exists (local_symbol e (i, n)). split; [split; [exact Hr|reflexivity]|]. split; [|reflexivity].
      unfold is_regional. destruct (local_kind e (i, n)) as [-> | ->]; reflexivity.
    - exists (ref_sym n e ALocal w). split; [now apply local_ref_in|]. split; reflexivity.
  Qed.
  Lemma belongs_out e n s : InTree tree e -> is_node e = true -> InTree tree n -> is_node n = true ->
    stands src n s -> is_regional s = true -> s_region s = key_of e -> BelongsTo e n.
  Proof.
    intros Te Ne T N [Hs Hk] R Rg.
    assert (Hkey : forall x, InTree tree x -> is_node x = true -> key_of x = key_of e -> x = e)
      by (intros; now apply (key_inj src)).
    assert (Hkn : forall x, InTree tree x -> is_node x = true -> key_of x = key_of n -> x = n)
      by (intros; now apply (key_inj src)).
    destruct (raw_cases src s Hs) as [m Tm Nm Km ->|m so i d Tm Nm Km Hd _ ->|f i d Tf Nf Kf Hd ->|b p Tb Nb Bb Pb ->|n' a w e' T' N' A W E ->].
    - discriminate.
    - cbn in Hk, Rg. apply Hkey in Rg; [|assumption..]. subst m. left. split; [exact Km|]. left.
      apply in_enum in Hd as (j & Hj & _). apply nth_error_In in Hj. destruct (def_pointable src e d Te Hj) as (Td & Nd & _).
      apply Hkn in Hk; [|assumption..]. now subst d.
    - cbn in Hk, Rg. apply Hkey in Rg; [|assumption..]. subst f. right. split; [exact Kf|]. left.
      apply in_enum in Hd as (j & Hj & _). apply nth_error_In in Hj.
      destruct (slot_pointable src e d Te Kf Hj) as (Td & Nd & _).
      apply Hkn in Hk; [|assumption..]. now subst d.
    - discriminate.
    - cbn in Hk, Rg. apply Hkn in Hk; [|assumption..]. subst n'.
      destruct a as [so| |]; cbn [enclosing_of] in E.
      + destruct (enclosing_kind src _ _ _ T N E) as (T1 & N1 & K1 & D1). apply Hkey in Rg; [|assumption..]. subst e'.
        left. split; [exact K1|]. right. exists so, w. unfold in_module. tauto.
      + destruct (enclosing_kind src _ _ _ T N E) as (T1 & N1 & K1 & D1). apply Hkey in Rg; [|assumption..]. subst e'.
        right. split; [exact K1|]. right. exists w. unfold in_func. tauto.
      + discriminate.
  Qed.

  Lemma no_blocks_of p s : is_regional s = true -> stands src p s ->
    existsb (fun t : key * key * idx => match t with (rk, _, _) => key_eqb (key_of p) rk end) (blocks tb) = false
    /\ existsb (fun t : key * key * idx => match t with (_, dk, _) => key_eqb dk (key_of p) end) (blocks tb) = false.
  Proof.
    intros R St. split; apply not_true_is_false; intros H; apply existsb_exists in H as (((rk & dk) & i) & Hi & E); apply key_eqb_eq in E.
    - destruct (proj1 (blocks_iff src rk dk)) as (n & w & b & Tn & Nn & A & W & Hd & -> & ->); [eauto|].
      rewrite direct_enclosing in Hd. destruct (enclosing block_kinds n) as [b0|] eqn:En; [|destruct Hd].
      assert (St' : stands src p (ref_sym n b0 ALabel w)) by (split; [now apply raw_ref_in|symmetry; exact E]).
      rewrite (stands_fun p s _ St St') in R. discriminate.
    - destruct (proj1 (blocks_iff src rk dk)) as (n & w & b & Tn & Nn & A & W & Hd & -> & ->); [eauto|].
      destruct (direct_in src n b Tn Nn Hd) as (Tb & Nb & Bb & _).
      destruct (block_parent src _ Tb Nb Bb) as (q & Pq & _).
      assert (St' : stands src p (block_symbol q b)) by (split; [now apply block_symbol_in|exact E]).
      rewrite (stands_fun p s _ St St') in R. discriminate.
  Qed.

  Lemma branch_blocks n b : InTree tree n -> is_node n = true -> InTree tree b -> is_node b = true ->
    existsb (fun t : key * key * idx => match t with (rk, dk, _) => key_eqb (key_of n) rk && key_eqb dk (key_of b) end) (blocks tb) = true
    <-> BranchUnder n b.
  Proof.
    intros T N Tb Nb. rewrite existsb_exists. split.
    - intros (((rk & dk) & i) & Hi & E). apply andb_true_iff in E as [E1 E2]. apply key_eqb_eq in E1, E2.
      destruct (proj1 (blocks_iff src rk dk)) as (n' & w & b' & Tn & Nn & A & W & Hd & E3 & E4); [eauto|].
      destruct (direct_in src n' b' Tn Nn Hd) as (Tb' & Nb' & _).
      assert (n' = n) as -> by (apply (key_inj src); auto; congruence).
      assert (b' = b) as -> by (apply (key_inj src); auto; congruence). split; eauto.
    - intros (A & (w & W) & Hd). destruct (proj2 (blocks_iff src (key_of n) (key_of b))) as (i & Hi).
      { exists n, w, b. tauto. }
      exists (key_of n, key_of b, i). split; [exact Hi|]. now rewrite !key_eqb_refl.
  Qed.
  Lemma symbol_eqb_stands p symbol n s : InTree tree n -> is_node n = true -> InTree tree p -> is_node p = true ->
    stands src p symbol -> stands src n s -> symbol_eqb symbol s = true <-> n = p.
  Proof.
    intros T N Tp Np [H1 E1] St. pose proof St as [H2 E2]. unfold symbol_eqb. rewrite andb_true_iff, key_eqb_eq, skind_eqb_eq. split.
    - intros [E _]. apply (key_inj src); auto. congruence.
    - intros ->. assert (symbol = s) as -> by (eapply stands_fun; [split; eauto|exact St]). auto.
  Qed.

  Lemma edits_ext new es (P Q : elem -> Prop) : (forall n t, ident_token src n t -> (P n <-> Q n)) ->
    EditsOf src new es P -> EditsOf src new es Q.
  Proof.
    intros H (ts & D & F & E). exists ts. split; [exact D|]. split; [exact F|]. intros t. rewrite E. split;
      intros (n & It & Hn); exists n; (split; [exact It|]); now apply (H n t It).
  Qed.

  (** The symbol of a node is of one of these sorts. *)
  Lemma rename_regional pos t p e new : ValidName new -> CursorOn src pos t -> ekind t = IDENT -> parent t = Some p ->
    token p IDENT = Some t -> InTree tree e -> is_node e = true -> BelongsTo e p ->
    exists es, rename src pos new = Edits es /\ EditsOf src new es (BelongsTo e).
  Proof.
    intros V C K P Tk Te Ne B. apply valid_name_iff in V. destruct (cursor_node _ _ _ _ C P) as (_ & _ & Tp & Np & _).
    destruct (belongs_in e p Te Ne Tp Np B) as (symbol & St & R & Rg).
    assert (Nm : i_name (s_idx symbol) = Some (etext t)).
    { destruct B as [[Ke [H|(so & w & A & W & M)]]|[Ke [H|(w & A & W & M)]]].
      - destruct (def_ex _ _ H) as (so & Hs).
        destruct (def_found src e so p Te Ne Ke) as (i & _ & _ & Hr).
        { apply filter_In. split; [|exact Hs]. unfold definitions in H. now apply filter_In in H. }
        rewrite (stands_fun p symbol _ St (conj Hr eq_refl)). cbn. unfold ident_of. now rewrite Tk.
      - rewrite (stands_fun p symbol _ St (module_ref_in src p so w e Tp Np A W M Te)). cbn.
        destruct W as [t' Et|t' k Et _ _]; rewrite Tk in Et; [|discriminate]. now injection Et as <-.
      - destruct (slot_found src e p Te Ne Ke H) as (i & Hi & Hr).
        rewrite (stands_fun p symbol _ St (conj Hr eq_refl)). cbn. destruct (kind_eqb (ekind p) VAL_TYPE) eqn:Kv.
        + exfalso. apply kind_eqb_eq in Kv. rewrite (no_token src p IDENT Tp) in Tk; [discriminate|congruence|rewrite Kv; reflexivity|reflexivity].
        + unfold ident_of. now rewrite Tk.
      - rewrite (stands_fun p symbol _ St (local_ref_in src p w e Tp Np A W M Te)). cbn.
        destruct W as [t' Et|t' k Et _ _]; rewrite Tk in Et; [|discriminate]. now injection Et as <-. }
    destruct (rename_spec src pos t p symbol new V C K P St) as (es & E & H). exists es. split; [exact E|].
    revert H. apply edits_ext. intros n tn (T & N & _). split.
    - intros (s & Sn & Hr). destruct (is_regional s) eqn:Rs.
      + assert (Hr' : key_eqb (s_region symbol) (s_region s) = true).
        { unfold renamed in Hr. unfold is_regional in Rs. destruct (s_kind s); try discriminate; now apply andb_true_iff in Hr. }
        apply key_eqb_eq in Hr'. apply (belongs_out e n s Te Ne T N Sn Rs). congruence.
      + exfalso. destruct (no_blocks_of p symbol R St) as [B1 B2].
        assert (Hne : symbol_eqb symbol s = false).
        { apply not_true_is_false. intros X. apply (symbol_eqb_stands p symbol n s T N Tp Np St Sn) in X. subst n.
          rewrite (stands_fun p _ _ St Sn) in R. congruence. }
        destruct St as [St1 St2]. destruct Sn as [Sn1 Sn2].
        assert (Hf : find_block_def tb (key_of p) = None).
        { unfold find_block_def, find_block_ref.
          pose proof (find_key_kind src symbol (fun s => skind_eqb (s_kind s) SBlockRef) St1) as X. rewrite St2 in X.
          assert (Y : skind_eqb (s_kind symbol) SBlockRef = false) by (unfold is_regional in R; destruct (s_kind symbol); try discriminate; reflexivity).
          cbn beta in X. rewrite Y in X. rewrite X. reflexivity. }
        unfold renamed in Hr. rewrite Hne, Hf in Hr. unfold is_regional in Rs.
        destruct (s_kind s); try discriminate; cbn [orb] in Hr; rewrite ?orb_false_r in Hr;
          apply existsb_exists in Hr as (((rk & dk) & i) & Hi & Er); apply andb_true_iff in Er as [Er1 Er2].
        * enough (true = false) by discriminate. rewrite <- B1. symmetry. apply existsb_exists. exists (rk, dk, i). auto.
        * enough (true = false) by discriminate. rewrite <- B2, <- St2. symmetry. apply existsb_exists. exists (rk, dk, i). auto.
    - intros Bn. destruct (belongs_in e n Te Ne T N Bn) as (s & Sn & Rs & Rgs). exists s. split; [exact Sn|].
      unfold renamed, is_regional in *. rewrite Rgs, Rg, key_eqb_refl, Nm, text_eqb_refl.
      destruct (s_kind s); try discriminate; reflexivity.
  Qed.

  Lemma renamed_cases old p symbol n s : InTree tree n -> is_node n = true -> InTree tree p -> is_node p = true ->
    stands src p symbol -> stands src n s ->
    renamed tb old (key_of p) symbol s = true <->
      (is_regional s = true /\ s_region symbol = s_region s /\ i_name (s_idx symbol) = Some old)
      \/ (s_kind s = SBlockDef /\ (n = p \/ BranchUnder p n))
      \/ (s_kind s = SBlockRef /\ (n = p \/ BranchUnder n p
            \/ exists d, find_block_def tb (key_of p) = Some d
                 /\ existsb (fun t : key * key * idx => match t with (rk, dk, _) => key_eqb (key_of n) rk && key_eqb dk (s_key d) end) (blocks tb) = true)).
  Proof.
    intros T N Tp Np St Sn. pose proof (symbol_eqb_stands p symbol n s T N Tp Np St Sn) as Heq.
    pose proof (branch_blocks p n Tp Np T N) as H1. pose proof (branch_blocks n p T N Tp Np) as H2.
    destruct St as [St1 St2]. destruct Sn as [Sn1 Sn2]. rewrite <- Sn2 in *. rewrite <- St2 in *.
    assert (Hnm : match i_name (s_idx symbol) with Some x => text_eqb x old | None => false end = true <-> i_name (s_idx symbol) = Some old).
    { destruct (i_name (s_idx symbol)) as [x|]; [|split; discriminate]. rewrite text_eqb_eq. split; congruence. }
    unfold renamed, is_regional. destruct (s_kind s); rewrite ?orb_true_iff, ?andb_true_iff, ?key_eqb_eq, ?Hnm, ?Heq, ?H1, ?H2;
      try (split; [intros H; left; tauto|intros [H|[[H _]|[H _]]]; [tauto|discriminate..]]).
    - split; [discriminate|]. intros [[H _]|[[H _]|[H _]]]; discriminate.
    - split; [tauto|]. intros [[H _]|[[_ H]|[H _]]]; [discriminate|exact H|discriminate].
    - split.
      + intros [H|H]; [tauto|]. right. right. split; [reflexivity|]. right. right.
        destruct (find_block_def tb (s_key symbol)) as [d|]; [|discriminate]. exists d. auto.
      + intros [[H _]|[[H _]|[_ [H|[H|(d & E & H)]]]]]; [discriminate|discriminate|tauto|tauto|]. right. rewrite E. exact H.
  Qed.

  Lemma branch_stands n b : InTree tree n -> is_node n = true -> BranchUnder n b ->
    exists s, stands src n s /\ s_kind s = SBlockRef.
  Proof.
    intros T N (A & (w & W) & Hd). rewrite direct_enclosing in Hd.
    destruct (enclosing block_kinds n) as [b0|] eqn:E; [|destruct Hd].
    exists (ref_sym n b0 ALabel w). split; [split; [now apply raw_ref_in|reflexivity]|reflexivity].
  Qed.

  Lemma rename_block pos t b q new : ValidName new -> CursorOn src pos t -> ekind t = IDENT -> parent t = Some b ->
    token b IDENT = Some t -> is_block b = true -> parent b = Some q ->
    exists es, rename src pos new = Edits es
      /\ EditsOf src new es (fun n => n = b \/ BranchUnder n b \/ BelongsTo q n).
  Proof.
    intros V C K P Tk B Q. apply valid_name_iff in V. destruct (cursor_node _ _ _ _ C P) as (_ & _ & Tb & Nb & _).
    destruct (block_parent src _ Tb Nb B) as (q' & Q' & _ & Tq & Nq). rewrite Q in Q'. injection Q' as <-.
    assert (St : stands src b (block_symbol q b)) by (split; [now apply block_symbol_in|reflexivity]).
    destruct (rename_spec src pos t b _ new V C K P St) as (es & E & H). exists es. split; [exact E|].
    revert H. apply edits_ext. intros n tn (T & N & _).
    assert (Hf : find_block_def tb (key_of b) = None).
    { unfold find_block_def, find_block_ref.
      pose proof (find_key_kind src (block_symbol q b) (fun s => skind_eqb (s_kind s) SBlockRef) (proj1 St)) as X.
      cbn [block_symbol s_kind s_key] in X. change (skind_eqb SBlockDef SBlockRef) with false in X. cbn iota in X. now rewrite X. }
    split.
    - intros (s & Sn & Hr). apply (renamed_cases _ b _ n s T N Tb Nb St Sn) in Hr as [(R & Rg & _)|[[Ks [->|Hu]]|[Ks [->|[Hu|(d & Ed & _)]]]]].
      + right. right. apply (belongs_out q n s Tq Nq T N Sn R). symmetry. exact Rg.
      + auto.
      + exfalso. destruct (branch_stands b n Tb Nb Hu) as (s' & Ss & Ks'). rewrite (stands_fun b _ _ Ss St) in Ks'. discriminate.
      + auto.
      + auto.
      + congruence.
    - intros [->|[Hu|Bq]].
      + exists (block_symbol q b). split; [exact St|]. apply (renamed_cases _ b _ b _ Tb Nb Tb Nb St St). right. left. auto.
      + destruct (branch_stands n b T N Hu) as (s & Ss & Ks). exists s. split; [exact Ss|].
        apply (renamed_cases _ b _ n s T N Tb Nb St Ss). right. right. auto.
      + destruct (belongs_in q n Tq Nq T N Bq) as (s & Ss & Rs & Rg). exists s. split; [exact Ss|].
        apply (renamed_cases _ b _ n s T N Tb Nb St Ss). left. split; [exact Rs|]. split; [symmetry; exact Rg|].
        cbn. unfold ident_of. now rewrite Tk.
  Qed.

  Lemma rename_label pos t p w new : ValidName new -> CursorOn src pos t -> ekind t = IDENT -> parent t = Some p ->
    Asks p ALabel -> Written p w -> direct_blocks p <> [] ->
    exists es, rename src pos new = Edits es
      /\ EditsOf src new es (fun n => n = p \/ In n (direct_blocks p)
           \/ exists b, label_target (direct_blocks p) w = Some b /\ BranchUnder n b).
  Proof.
    intros V C K P A W Hd. apply valid_name_iff in V. destruct (cursor_node _ _ _ _ C P) as (_ & _ & Tp & Np & _).
    pose proof Hd as Hd'. rewrite direct_enclosing in Hd'. destruct (enclosing block_kinds p) as [b0|] eqn:En; [|now destruct Hd'].
    assert (Hb0 : InTree tree b0 /\ is_node b0 = true /\ is_block b0 = true).
    { apply enclosing_some in En as [Ea Ek]. destruct (ancestor_node src _ _ Tp Np Ea) as (X & _ & Y).
      repeat split; auto. unfold is_block. apply existsb_exists. exists (ekind b0). split; [exact Ek|]. now apply kind_eqb_eq. }
    destruct Hb0 as (Tb0 & Nb0 & Bb0).
    assert (St : stands src p (ref_sym p b0 ALabel w)) by (split; [now apply raw_ref_in|reflexivity]).
    destruct (rename_spec src pos t p _ new V C K P St) as (es & E & H). exists es. split; [exact E|].
    revert H. apply edits_ext. intros n tn (T & N & _).
    pose proof (find_block_def_spec src p w Tp Np A W) as Hf.
    split.
    - intros (s & Sn & Hr). apply (renamed_cases _ p _ n s T N Tp Np St Sn) in Hr as [(R & Rg & _)|[[Ks [->|Hu]]|[Ks [->|[Hu|(d & Ed & Hx)]]]]].
      + exfalso. cbn in Rg. symmetry in Rg. pose proof (belongs_out b0 n s Tb0 Nb0 T N Sn R Rg) as [[X _]|[X _]];
          unfold is_block in Bb0; rewrite X in Bb0; discriminate.
      + auto.
      + right. left. apply Hu.
      + auto.
      + exfalso. destruct Hu as (_ & _ & Hu). destruct (direct_in src n p T N Hu) as (_ & _ & Bp & _).
        pose proof (asks_operand src p _ Tp Np A) as X. unfold is_block in Bp.
        apply orb_true_iff in X as [X|X]; apply kind_eqb_eq in X; rewrite X in Bp; discriminate.
      + right. right. destruct (label_target (direct_blocks p) w) as [b|] eqn:El; [|congruence].
        destruct Hf as (q & Pb & Eb). rewrite Eb in Ed. injection Ed as <-. exists b. split; [reflexivity|].
        assert (Hb : In b (direct_blocks p)) by (unfold label_target in El; destruct w; [now apply find_some in El|now apply nth_error_In in El]).
        destruct (direct_in src p b Tp Np Hb) as (Tb & Nb & _). now apply (branch_blocks n b T N Tb Nb).
    - intros [->|[Hb|(b & El & Hu)]].
      + exists (ref_sym p b0 ALabel w). split; [exact St|]. apply (renamed_cases _ p _ p _ Tp Np Tp Np St St). right. right. auto.
      + destruct (direct_in src p n Tp Np Hb) as (_ & _ & Bn & _). destruct (block_parent src _ T N Bn) as (q & Pq & _).
        assert (Sn : stands src n (block_symbol q n)) by (split; [now apply block_symbol_in|reflexivity]).
        exists (block_symbol q n). split; [exact Sn|]. apply (renamed_cases _ p _ n _ T N Tp Np St Sn). right. left.
        split; [reflexivity|]. right. split; [exact A|]. split; [eauto|exact Hb].
      + destruct (branch_stands n b T N Hu) as (s & Ss & Ks). exists s. split; [exact Ss|].
        apply (renamed_cases _ p _ n s T N Tp Np St Ss). right. right. split; [exact Ks|]. right. right.
        rewrite El in Hf. destruct Hf as (q & Pb & Eb). exists (block_symbol q b). split; [exact Eb|].
        assert (Hb : In b (direct_blocks p)) by (unfold label_target in El; destruct w; [now apply find_some in El|now apply nth_error_In in El]).
        destruct (direct_in src p b Tp Np Hb) as (Tb & Nb & _). now apply (branch_blocks n b T N Tb Nb).
  Qed.
End Doc.

(** Renaming a definition, a parameter or local, or a reference to one of
    these, edits the identifier of everything in the same name space. *)
Theorem C21_name_space src pos t p e new :
  ValidName new -> CursorOn src pos t -> ekind t = IDENT -> parent t = Some p -> token p IDENT = Some t ->
  InTree (tree_of src) e -> is_node e = true -> BelongsTo e p ->
  exists es, rename src pos new = Edits es /\ EditsOf src new es (BelongsTo e).
Proof. apply rename_regional. Qed.
(** Renaming a block label edits the label, every branch label under the block
    (whether or not it resolves to it), and for a block that is a direct child
    of a function also the parameters and locals of the function. *)
Theorem C21_block src pos t b q new :
  ValidName new -> CursorOn src pos t -> ekind t = IDENT -> parent t = Some b -> token b IDENT = Some t ->
  is_block b = true -> parent b = Some q ->
  exists es, rename src pos new = Edits es
    /\ EditsOf src new es (fun n => n = b \/ BranchUnder n b \/ BelongsTo q n).
Proof. apply rename_block. Qed.
(** Renaming at a branch edits it, the labels of all its directly enclosing
    blocks, and every branch label under the block it resolves to. *)
Theorem C21_branch src pos t p w new :
  ValidName new -> CursorOn src pos t -> ekind t = IDENT -> parent t = Some p ->
  Asks p ALabel -> Written p w -> direct_blocks p <> [] ->
  exists es, rename src pos new = Edits es
    /\ EditsOf src new es (fun n => n = p \/ In n (direct_blocks p)
         \/ exists b, label_target (direct_blocks p) w = Some b /\ BranchUnder n b).
Proof. apply rename_label. Qed.

Definition Edited (src : text) (es : list (range * text)) (new : text) (t : elem) : Prop :=
  exists e, In e es /\ RangeOf src t (fst e) /\ snd e = new.
Lemma edits_has src new es P n t : EditsOf src new es P -> ident_token src n t -> P n -> Edited src es new t.
Proof.
  intros (ts & _ & F & H) I Hp. assert (Ht : In t ts) by (apply H; eauto). clear H.
  induction F as [|e t' es ts He F IH]; [destruct Ht|]. destruct Ht as [->|Ht].
  - exists e. split; [now left|exact He].
  - destruct (IH Ht) as (e' & X & Y). exists e'. split; [now right|exact Y].
Qed.

(** Nothing that resolves to the renamed definition is forgotten. *)
Theorem C21_complete src pos t d s m new n tn :
  ValidName new -> CursorOn src pos t -> ekind t = IDENT -> parent t = Some d -> token d IDENT = Some t ->
  InTree (tree_of src) m -> is_node m = true -> ekind m = MODULE -> In d (definitions_of s m) ->
  InTree (tree_of src) n -> is_node n = true -> Resolves src n d -> token n IDENT = Some tn ->
  exists es, rename src pos new = Edits es /\ Edited src es new t /\ Edited src es new tn.
Proof.
  intros V C K P Tk Tm Nm Km Hd Tn Nn R Tkn. destruct (cursor_node _ _ _ _ C P) as (_ & _ & Td & Nd & _).
  assert (Hdef : In d (definitions m)).
  { unfold definitions_of in Hd. unfold definitions. apply filter_In in Hd as [H1 H2]. apply filter_In. split; [exact H1|].
    now apply has_sort_def with s. }
  assert (B : BelongsTo m d) by (left; auto).
  destruct (C21_name_space src pos t d m new V C K P Tk Tm Nm B) as (es & E & H).
  exists es. split; [exact E|]. split.
  - eapply edits_has; [exact H| |exact B]. split; auto.
  - apply (edits_has src new es (BelongsTo m) n tn H); [split; auto|]. destruct R as (s' & m' & w & A & W & M & Tm' & Hd' & _).
    assert (m' = m) as ->.
    { unfold definitions_of in Hd, Hd'. apply filter_In in Hd as [Hd _], Hd' as [Hd' _].
      apply in_descendants_of in Hd as [Hd _], Hd' as [Hd' _]. destruct M as (Km' & Nm' & _).
      eapply (module_unique src); eauto. }
    left. split; [exact Km|]. right. eauto.
Qed.
(** If no other name is used in the module, rename is exact. *)
Theorem C21_exact_alone src pos t d s m new :
  ValidName new -> CursorOn src pos t -> ekind t = IDENT -> parent t = Some d -> token d IDENT = Some t ->
  InTree (tree_of src) m -> is_node m = true -> ekind m = MODULE -> In d (definitions_of s m) ->
  (forall n tn, InTree (tree_of src) n -> token n IDENT = Some tn -> BelongsTo m n -> n = d \/ Resolves src n d) ->
  exists es, rename src pos new = Edits es /\ EditsOf src new es (fun n => n = d \/ Resolves src n d).
Proof.
  intros V C K P Tk Tm Nm Km Hd Alone.
  assert (Hdef : In d (definitions m)).
  { unfold definitions_of in Hd. unfold definitions. apply filter_In in Hd as [H1 H2]. apply filter_In. split; [exact H1|].
    now apply has_sort_def with s. }
  assert (B : BelongsTo m d) by (left; auto).
  destruct (C21_name_space src pos t d m new V C K P Tk Tm Nm B) as (es & E & H).
  exists es. split; [exact E|]. revert H. apply edits_ext. intros n tn (Tn & Nn & Tkn). split; [eauto|].
  intros [->|(s' & m' & w & A & W & M & Tm' & Hd' & _)]; [exact B|].
  assert (m' = m) as ->.
  { unfold definitions_of in Hd, Hd'. apply filter_In in Hd as [Hd _], Hd' as [Hd' _].
    apply in_descendants_of in Hd as [Hd _], Hd' as [Hd' _]. destruct M as (Km' & Nm' & _).
    eapply (module_unique src); eauto. }
  left. split; [exact Km|]. right. eauto.
Qed.

(** The token under the cursor is among the edits, unless it is the name of a
    module or not the first identifier of its construct. *)
Theorem C22_cursor_included src pos t p new es :
  CursorOn src pos t -> ekind t = IDENT -> parent t = Some p -> token p IDENT = Some t -> ekind p <> MODULE ->
  rename src pos new = Edits es -> Edited src es new t.
Proof.
  intros C K P Tk Km H. destruct (cursor_node _ _ _ _ C P) as (_ & _ & Tp & Np & _).
  assert (V : valid_name new = true) by (unfold rename in H; destruct (valid_name new); [reflexivity|discriminate]).
  pose proof (proj1 (valid_name_iff new) V) as V'.
  pose proof H as H0. unfold rename, cursor_token in H0. rewrite V, C, K in H0.
  change (kind_eqb IDENT IDENT) with true in H0. cbn iota in H0. unfold rename_impl in H0.
  rewrite symbols_spec, P in H0. cbn [aopt abind] in H0.
  destruct (find_key (the_table src) (key_of p)) as [s|] eqn:F; [|discriminate]. clear H0.
  apply find_key_in in F. pose proof F as [F1 F2].
  assert (I : ident_token src p t) by (split; auto).
  assert (Hkn : forall x, InTree (tree_of src) x -> is_node x = true -> key_of x = key_of p -> x = p)
    by (intros; now apply (key_inj src)).
  destruct (raw_cases src s F1) as [m Tm Nm Kmm ->|m so i d Tm Nm Kmm Hd _ ->|f i d Tf Nf Kf Hd ->|b q Tb Nb Bb Pb ->|n' a w e' T' N' A W E ->].
  - exfalso. apply Km. rewrite <- (Hkn m Tm Nm F2). exact Kmm.
  - destruct (C21_name_space src pos t p m new V' C K P Tk Tm Nm) as (es' & E & X).
    + eapply (belongs_out src); eauto. destruct so; reflexivity.
    + rewrite H in E. injection E as <-. eapply edits_has; eauto. eapply (belongs_out src); eauto. destruct so; reflexivity.
  - assert (R : is_regional (local_symbol f (i, d)) = true)
      by (unfold is_regional; destruct (local_kind f (i, d)) as [-> | ->]; reflexivity).
    destruct (C21_name_space src pos t p f new V' C K P Tk Tf Nf) as (es' & E & X).
    + apply (belongs_out src f p _ Tf Nf Tp Np F R eq_refl).
    + rewrite H in E. injection E as <-. apply (edits_has _ _ _ _ p t X I).
      apply (belongs_out src f p _ Tf Nf Tp Np F R eq_refl).
  - apply Hkn in F2; [|assumption..]. subst b.
    destruct (C21_block src pos t p q new V' C K P Tk Bb Pb) as (es' & E & X). rewrite H in E. injection E as <-.
    apply (edits_has _ _ _ _ p t X I). now left.
  - apply Hkn in F2; [|assumption..]. subst n'. destruct a as [so| |]; cbn [enclosing_of] in E.
    + destruct (enclosing_kind src _ _ _ T' N' E) as (T1 & N1 & K1 & D1).
      assert (B : BelongsTo e' p) by (left; split; [exact K1|right; exists so, w; unfold in_module; tauto]).
      destruct (C21_name_space src pos t p e' new V' C K P Tk T1 N1 B) as (es' & E' & X).
      rewrite H in E'. injection E' as <-. eapply edits_has; eauto.
    + destruct (enclosing_kind src _ _ _ T' N' E) as (T1 & N1 & K1 & D1).
      assert (B : BelongsTo e' p) by (right; split; [exact K1|right; exists w; unfold in_func; tauto]).
      destruct (C21_name_space src pos t p e' new V' C K P Tk T1 N1 B) as (es' & E' & X).
      rewrite H in E'. injection E' as <-. eapply edits_has; eauto.
    + assert (Hd : direct_blocks p <> []).
      { rewrite direct_enclosing, E. apply enclosing_some in E as [_ E].
        unfold ancestors; cbn [while_block].
        assert (Bb : is_block e' = true) by (unfold is_block; apply existsb_exists; exists (ekind e'); split; [exact E|now apply kind_eqb_eq]).
        rewrite Bb. discriminate. }
      destruct (C21_branch src pos t p w new V' C K P A W Hd) as (es' & E' & X).
      rewrite H in E'. injection E' as <-. apply (edits_has _ _ _ _ p t X I). now left.
Qed.

(** ** Examples and refutations *)

Definition rename_ex : text := T "(module (func $a) (func $b (call $a)))".
Example C21_example :
  let t := cur rename_ex (0, 15) in let d := par t in let m := enc MODULE d in
  let tn := cur rename_ex (0, 34) in let n := par tn in
  ValidName (T "$new") /\ CursorOn rename_ex (0, 15) t /\ ekind t = IDENT /\ parent t = Some d /\ token d IDENT = Some t
  /\ InTree (tree_of rename_ex) m /\ is_node m = true /\ ekind m = MODULE /\ In d (definitions_of FuncS m)
  /\ InTree (tree_of rename_ex) n /\ is_node n = true /\ Resolves rename_ex n d /\ token n IDENT = Some tn
  /\ BelongsTo m d
  /\ rename rename_ex (0, 15) (T "$new")
     = Edits [(((0, 14), (0, 16)), T "$new"); (((0, 24), (0, 26)), T "$new"); (((0, 33), (0, 35)), T "$new")].
Proof.
  cursor_at rename_ex (0, 15) C P. cursor_at rename_ex (0, 34) C' P'. enclosing_at rename_ex (0, 15) MODULE E.
  enclosing_at rename_ex (0, 34) MODULE E'.
  destruct (ex_module _ _ _ _ _ C P E) as [(Km & Nm & D) M2]. destruct (cursor_node _ _ _ _ C' P') as (_ & _ & Tn & Nn & _).
  destruct (ex_module _ _ _ _ _ C' P' E') as [M1' M2'].
  assert (Hd : In (par (cur rename_ex (0, 15))) (definitions_of FuncS (enc MODULE (par (cur rename_ex (0, 15)))))) by (vm_compute; tauto).
  assert (A : Asks (par (cur rename_ex (0, 34))) (AModule FuncS)) by (by_instr Asks_call (par (cur rename_ex (0, 34)))).
  assert (W : Written (par (cur rename_ex (0, 34))) (Named (T "$a")))
    by (apply (Written_name (par (cur rename_ex (0, 34))) (cur rename_ex (0, 34))); vm_compute; reflexivity).
  intros t d m tn n. split; [apply valid_name_iff; vm_compute; reflexivity|]. split; [exact C|].
  split; [vm_compute; reflexivity|]. split; [exact P|]. split; [vm_compute; reflexivity|].
  split; [exact M2|]. split; [exact Nm|]. split; [exact Km|]. split; [exact Hd|]. split; [exact Tn|]. split; [exact Nn|].
  split; [|split; [vm_compute; reflexivity|split; [|vm_compute; reflexivity]]].
  - exists FuncS, (enc MODULE n), (Named (T "$a")). split; [exact A|]. split; [exact W|]. split; [exact M1'|]. split; [exact M2'|].
    split; [vm_compute; tauto|]. vm_compute. reflexivity.
  - left. split; [exact Km|]. left. vm_compute. tauto.
Qed.

(** Renaming [$a] also edits the name of the unrelated function [$b]. *)
Theorem C21_only_occurrences_refuted :
  exists src pos t d n tn e es,
    CursorOn src pos t /\ parent t = Some d /\ token d IDENT = Some t
    /\ rename src pos (T "$new") = Edits es /\ In e es /\ RangeOf src tn (fst e) /\ token n IDENT = Some tn
    /\ InTree (tree_of src) n /\ is_node n = true
    /\ n <> d /\ ~ Resolves src n d.
Proof.
  cursor_at rename_ex (0, 25) C P. destruct (cursor_node _ _ _ _ C P) as (_ & _ & T & N & _).
  exists rename_ex, (0, 15), (cur rename_ex (0, 15)), (par (cur rename_ex (0, 15))), (par (cur rename_ex (0, 25))), (cur rename_ex (0, 25)),
    (((0, 24), (0, 26)), Text.T "$new"). eexists.
  split; [vm_compute; reflexivity|]. split; [vm_compute; reflexivity|]. split; [vm_compute; reflexivity|].
  split; [vm_compute; reflexivity|]. split; [right; left; reflexivity|]. split; [split; vm_compute; reflexivity|].
  split; [vm_compute; reflexivity|]. split; [exact T|]. split; [exact N|]. split.
  - intros H. apply (f_equal off) in H. vm_compute in H. discriminate.
  - intros (s & m & w & A & _). pose proof (asks_operand rename_ex _ _ T N A) as X. vm_compute in X. discriminate.
Qed.

(** A block that is a direct child of a function: renaming its label also
    edits the parameters of the function. *)
Definition rename_block_ex : text := T "(module (func (param $x i32) block $a (br $a) end))".
Example C21_block_example :
  let t := cur rename_block_ex (0, 36) in let b := par t in
  CursorOn rename_block_ex (0, 36) t /\ ekind t = IDENT /\ parent t = Some b /\ token b IDENT = Some t /\ is_block b = true
  /\ (exists q, parent b = Some q /\ ekind q = MODULE_FIELD_FUNC)
  /\ rename rename_block_ex (0, 36) (T "$new")
     = Edits [(((0, 21), (0, 23)), T "$new"); (((0, 35), (0, 37)), T "$new"); (((0, 42), (0, 44)), T "$new")].
Proof.
  intros t b. split; [vm_compute; reflexivity|]. split; [vm_compute; reflexivity|]. split; [vm_compute; reflexivity|].
  split; [vm_compute; reflexivity|]. split; [vm_compute; reflexivity|]. split; [|vm_compute; reflexivity].
  exists (par b). split; vm_compute; reflexivity.
Qed.
Theorem C21_block_only_branches_refuted :
  exists src pos t b n tn e es,
    CursorOn src pos t /\ parent t = Some b /\ token b IDENT = Some t /\ is_block b = true
    /\ rename src pos (T "$new") = Edits es /\ In e es /\ RangeOf src tn (fst e) /\ parent tn = Some n /\ ekind n = PARAM.
Proof.
  exists rename_block_ex, (0, 36), (cur rename_block_ex (0, 36)), (par (cur rename_block_ex (0, 36))),
    (par (cur rename_block_ex (0, 22))), (cur rename_block_ex (0, 22)), (((0, 21), (0, 23)), Text.T "$new"). eexists.
  split; [vm_compute; reflexivity|]. split; [vm_compute; reflexivity|]. split; [vm_compute; reflexivity|]. split; [vm_compute; reflexivity|].
  split; [vm_compute; reflexivity|]. split; [left; reflexivity|]. split; [split; vm_compute; reflexivity|].
  split; vm_compute; reflexivity.
Qed.
Example C21_branch_example :
  let t := cur rename_block_ex (0, 43) in let p := par t in
  CursorOn rename_block_ex (0, 43) t /\ ekind t = IDENT /\ parent t = Some p /\ Asks p ALabel /\ Written p (Named (T "$a"))
  /\ direct_blocks p <> []
  /\ rename rename_block_ex (0, 43) (T "$new") = Edits [(((0, 35), (0, 37)), T "$new"); (((0, 42), (0, 44)), T "$new")].
Proof.
  intros t p. split; [vm_compute; reflexivity|]. split; [vm_compute; reflexivity|]. split; [vm_compute; reflexivity|].
  split; [by_instr Asks_label p|]. split; [apply (Written_name p t); vm_compute; reflexivity|].
  split; [|vm_compute; reflexivity]. intros H. apply (f_equal (@length _)) in H. vm_compute in H. discriminate.
Qed.

(** The identifier after [end] is not edited when it is the one under the
    cursor, and neither is the name of a module. *)
Definition rename_end_ex : text := T "(module $m (func block $a end $a))".
Theorem C22_cursor_included_refuted :
  rename rename_end_ex (0, 31) (T "$new") = Edits [(((0, 23), (0, 25)), T "$new")]
  /\ rename rename_end_ex (0, 9) (T "$new") = Edits []
  /\ map (fun pos => (etext (cur rename_end_ex pos), ekind (cur rename_end_ex pos), estart (cur rename_end_ex pos))) [(0, 31); (0, 9)]
     = [(T "$a", IDENT, 30); (T "$m", IDENT, 8)].
Proof. split; [|split]; vm_compute; reflexivity. Qed.
Example C22_example :
  rename rename_ex (0, 15) (T "$new")
  = Edits [(((0, 14), (0, 16)), T "$new"); (((0, 24), (0, 26)), T "$new"); (((0, 33), (0, 35)), T "$new")]
  /\ rename rename_ex (0, 15) (T "new") = InvalidName /\ rename rename_ex (0, 15) (T "$") = InvalidName
  /\ ekind (par (cur rename_ex (0, 15))) <> MODULE.
Proof. repeat split; vm_compute; try reflexivity. discriminate. Qed.
Definition alone_ex : text := T "(module (func $a (call $a)))".
Example C21_alone_example :
  let t := cur alone_ex (0, 15) in let d := par t in let m := enc MODULE d in
  CursorOn alone_ex (0, 15) t /\ ekind t = IDENT /\ parent t = Some d /\ token d IDENT = Some t
  /\ InTree (tree_of alone_ex) m /\ is_node m = true /\ ekind m = MODULE /\ In d (definitions_of FuncS m)
  /\ (forall n tn, InTree (tree_of alone_ex) n -> token n IDENT = Some tn -> BelongsTo m n -> n = d \/ Resolves alone_ex n d)
  /\ rename alone_ex (0, 15) (T "$new") = Edits [(((0, 14), (0, 16)), T "$new"); (((0, 23), (0, 25)), T "$new")].
Proof.
  cursor_at alone_ex (0, 15) C P. cursor_at alone_ex (0, 24) C' P'. enclosing_at alone_ex (0, 15) MODULE E.
  enclosing_at alone_ex (0, 24) MODULE E'.
  destruct (ex_module _ _ _ _ _ C P E) as [(Km & Nm & D) M2]. destruct (cursor_node _ _ _ _ C P) as (_ & _ & Td & Nd & _).
  destruct (cursor_node _ _ _ _ C' P') as (_ & _ & Tn & Nn & _).
  destruct (ex_module _ _ _ _ _ C' P' E') as [M1' M2'].
  intros t d m. split; [exact C|]. split; [vm_compute; reflexivity|]. split; [exact P|]. split; [vm_compute; reflexivity|].
  split; [exact M2|]. split; [exact Nm|]. split; [exact Km|]. split; [vm_compute; tauto|].
  split; [|vm_compute; reflexivity]. intros n tn T Tk _.
  assert (N : is_node n = true).
  { apply token_some in Tk as (Hc & _). unfold is_node. unfold children_with_tokens in Hc. destruct (el n); [destruct Hc|reflexivity]. }
  assert (H : forallb (fun n => match token n IDENT with None => true | Some _ => key_eqb (key_of n) (key_of (par (cur alone_ex (0, 15))))
                || key_eqb (key_of n) (key_of (par (cur alone_ex (0, 24)))) end) (descendants (root_of (tree_of alone_ex))) = true)
    by (vm_compute; reflexivity).
  rewrite forallb_forall in H. specialize (H n (proj2 (in_descendants_of _ _) (conj T N))). rewrite Tk in H.
  apply orb_true_iff in H as [H|H]; apply key_eqb_eq in H.
  - left. now apply (key_inj alone_ex).
  - right. assert (n = par (cur alone_ex (0, 24))) as -> by now apply (key_inj alone_ex).
    exists FuncS, (enc MODULE (par (cur alone_ex (0, 24)))), (Named (Text.T "$a")).
    split; [by_instr Asks_call (par (cur alone_ex (0, 24)))|].
    split; [apply (Written_name _ (cur alone_ex (0, 24))); vm_compute; reflexivity|]. split; [exact M1'|]. split; [exact M2'|].
    split; [vm_compute; tauto|]. vm_compute. reflexivity.
Qed.
