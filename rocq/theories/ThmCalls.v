(** Call hierarchy (C27). *)

From Coq Require Import String List NArith Bool Arith Lia Sorted.
From Verif Require Import Text Kind Green SpecParser Lexer LexerFacts Winnow Grammar Sem Lossless Total
  Bounds Lang TokForm Shape ThmParser Red Unique LineIndex ThmTree Cursor ThmPos Doc Ast Binder Preorder SpecBinder BinderFacts
  BinderDefs Blocks Nav NavSpec NavFacts ThmNav RefFacts ThmRefs SymCases TokKinds InstrMeta Types Check CheckFacts
  CheckMsgs ThmCheck ThmDup SpecTypes SigFacts SpecHeader HeaderFacts Counts Features ThmStructure.
Import ListNotations.

(** ** Specification *)

(** [f] is a function of the module [m], the [k]th of its definitions. *)
Definition FuncDef (src : text) (m : elem) (k : nat) (f : elem) : Prop :=
  InTree (tree_of src) m /\ is_node m = true /\ ekind m = MODULE
  /\ nth_error (definitions m) k = Some f /\ has_sort FuncS f = true.

(** The item for a function: named by its identifier or its number, with its
    header, its range, and the range of what is shown for it. *)
Definition ItemOf (src : text) (f : elem) (it : call_item) : Prop :=
  exists m k, FuncDef src m k f
    /\ it_name it = match token f IDENT with Some t => etext t | None => shown_ref (Numbered (N.of_nat k)) end
    /\ Header src f (it_detail it) /\ RangeOf src f (it_range it) /\ Shows src (it_selection it) f.

(** The instruction [c] in the body of [f] calls (or refers to) [g]. *)
Definition CallIn (src : text) (f c g : elem) : Prop :=
  ekind f = MODULE_FIELD_FUNC /\ Desc f c /\ named_instr c ["call"; "ref.func"; "return_call"]%string
  /\ exists o, In o (childs c OPERAND) /\ Resolves src o g.

(** ** Facts *)

Lemma func_kinds f : has_sort FuncS f = true <-> ekind f = MODULE_FIELD_FUNC \/ ekind f = IMPORT_DESC_TYPE_USE.
Proof.
  unfold has_sort, def_sort. split.
  - destruct (ekind f); intros H; try discriminate; auto.
  - intros [->| ->]; reflexivity.
Qed.
Lemma sort_fun s s' d : has_sort s d = true -> has_sort s' d = true -> s = s'.
Proof.
  unfold has_sort. destruct (def_sort d) as [x|]; [|discriminate].
  destruct (sort_eq_dec s x), (sort_eq_dec s' x); try discriminate; congruence.
Qed.
Lemma func_def_in src m k f : FuncDef src m k f ->
  InTree (tree_of src) f /\ is_node f = true /\ Desc m f /\ In f (definitions m) /\ In f (definitions_of FuncS m) /\ pointable src f.
Proof.
  intros (T & N & K & H & S). apply nth_error_In in H. pose proof (def_pointable src m f T H) as P.
  pose proof H as H'. unfold definitions in H'. apply filter_In in H' as [H1 _]. pose proof H1 as H2. apply in_descendants_of in H2 as [D Nf].
  destruct P as (Tf & P2). split; [exact Tf|]. split; [exact Nf|]. split; [exact D|]. split; [exact H|].
  split; [|split; assumption]. unfold definitions_of. apply filter_In. auto.
Qed.
Lemma func_sym src m k f : FuncDef src m k f -> In (def_symbol m SFunc (N.of_nat k, f)) (raw_symbols (nodes src)).
Proof.
  intros F. destruct (func_def_in src m k f F) as (Tf & Nf & D & Hin & Hs & P). destruct F as (T & N & K & H & S).
  destruct (def_found src m FuncS f T N K Hs) as (i & Hi & So & Hr).
  assert (i = N.of_nat k) as ->; [|exact Hr].
  apply in_enum in Hi as (j & Hj & E). cbn in E, Hj. rewrite E. f_equal.
  assert (ND : NoDup (definitions m)) by (apply NoDup_filter, descendants_nodup).
  apply (proj1 (NoDup_nth_error _) ND); [apply nth_error_Some; congruence|congruence].
Qed.
Lemma func_sym_out src s : In s (raw_symbols (nodes src)) -> s_kind s = SFunc ->
  exists m k f, FuncDef src m k f /\ s = def_symbol m SFunc (N.of_nat k, f).
Proof.
  intros Hs K. destruct (raw_cases src s Hs) as [m T N Km ->|m so i d T N Km Hd So ->|f i d T N Kf Hd ->|bl p T N B P ->|n q w e T N A W E ->].
  - discriminate.
  - destruct so; try discriminate. apply in_enum in Hd as (j & Hj & E). cbn [fst snd] in Hj, E. rewrite N.add_0_l in E. subst i.
    exists m, j, d. split; [|reflexivity]. repeat (split; [assumption|]). exact So.
  - cbn in K. unfold slot_kind in K. destruct (N.ltb i (N.of_nat (length (param_slots f)))); discriminate.
  - discriminate.
  - destruct q as [so| |]; try discriminate. destruct so; discriminate.
Qed.

(** Functions with the same range are the same. *)
Lemma func_range_inj src m k f m' k' f' : FuncDef src m k f -> FuncDef src m' k' f' ->
  estart f = estart f' -> eend f = eend f' -> f = f'.
Proof.
  intros F F' Es Ee. destruct (func_def_in src m k f F) as (Tf & Nf & _ & _ & _ & _ & _ & K1 & K2).
  destruct (func_def_in src m' k' f' F') as (Tf' & Nf' & _).
  assert (R : rank (ekind f) = rank (ekind f')).
  { destruct F as (_ & _ & _ & _ & S), F' as (_ & _ & _ & _ & S'). apply func_kinds in S, S'.
    destruct S as [->| ->], S' as [->| ->]; reflexivity. }
  assert (G : glen (el f) = glen (el f')) by (unfold estart, eend in *; lia).
  pose proof (node_nonempty src f Tf Nf K1 K2) as L.
  destruct (nested_or_apart (tree_of src) f f' Tf Tf') as [D|[D|D]].
  - destruct (Desc_depth _ _ D) as [E|E]; [exact E|exfalso]. assert (E' : f <> f') by (intros ->; lia).
    pose proof (desc_rank _ _ _ _ (parse_of src) f f' Tf D Nf' E' G). lia.
  - destruct (Desc_depth _ _ D) as [E|E]; [now symmetry|exfalso]. assert (E' : f' <> f) by (intros ->; lia).
    pose proof (desc_rank _ _ _ _ (parse_of src) f' f Tf' D Nf E' (eq_sym G)). lia.
  - lia.
Qed.

Section Doc.
  Variable src : text.
  Notation tree := (tree_of src).
  Notation tb := (the_table src).
  Notation nodes := (nodes src).

  Lemma item_ok m k f : FuncDef src m k f ->
    exists it, call_item_of src tb (def_symbol m SFunc (N.of_nat k, f)) = Ans it
      /\ forall it', ItemOf src f it' <-> it' = it.
  Proof.
    intros F. destruct (func_def_in src m k f F) as (Tf & Nf & D & _ & _ & Pf).
    set (s := def_symbol m SFunc (N.of_nat k, f)).
    destruct (header_spec src f s Pf eq_refl eq_refl eq_refl eq_refl) as (x & Ex & Hx).
    destruct (location_ok src s f Pf eq_refl) as (sel & Es & Hs).
    destruct (range_of_ok src f Tf) as (r & Er & Hr).
    unfold call_item_of. rewrite Ex. cbn [abind].
    assert (E2 : key_range src (s_key s) = Ans r) by exact Er. rewrite E2. cbn [abind].
    unfold item_selection. rewrite Es. cbn [abind]. eexists. split; [reflexivity|].
    assert (Nm : symbol_name s = match token f IDENT with Some t => etext t | None => shown_ref (Numbered (N.of_nat k)) end).
    { unfold symbol_name, s. cbn [def_symbol s_idx i_name i_num snd fst]. unfold ident_of. destruct (token f IDENT); reflexivity. }
    intros it'. split.
    - intros (m' & k' & F' & N1 & N2 & N3 & N4). destruct (func_def_in src m' k' f F') as (_ & _ & D' & _ & _ & _).
      pose proof F as (T1 & M1 & K1 & H1 & _). pose proof F' as (T2 & M2 & K2 & H2 & _).
      assert (m' = m) as -> by (apply (module_unique src f); auto).
      assert (k' = k) as ->.
      { assert (ND : NoDup (definitions m)) by (apply NoDup_filter, descendants_nodup).
        apply (proj1 (NoDup_nth_error _) ND); [apply nth_error_Some; congruence|congruence]. }
      apply Hx in N2. destruct it' as [i1 i2 i3 i4]. cbn in *. subst i2. rewrite N1, Nm.
      rewrite (range_fun _ _ _ _ N3 Hr), (range_fun _ _ _ _ N4 Hs). reflexivity.
    - intros ->. exists m, k. split; [exact F|]. cbn [it_name it_detail it_range it_selection].
      split; [exact Nm|]. split; [now apply Hx|]. split; [exact Hr|exact Hs].
  Qed.

  Lemma func_at m k f r : FuncDef src m k f -> RangeOf src f r ->
    func_at_range src tb r = Ans (def_symbol m SFunc (N.of_nat k, f)).
  Proof.
    intros F [A B]. destruct r as [r1 r2]. cbn [fst snd] in *. unfold func_at_range. cbn [fst snd].
    unfold rowan_range. rewrite (line_col_inv _ _ _ A), (line_col_inv _ _ _ B).
    destruct (func_def_in src m k f F) as (Tf & _). pose proof (in_tree_range src f Tf) as L.
    destruct (Nat.leb_spec (estart f) (eend f)); [|lia].
    rewrite (find_unique _ _ (def_symbol m SFunc (N.of_nat k, f))).
    - reflexivity.
    - now apply func_sym.
    - cbn [def_symbol s_kind s_key snd]. unfold key_is_range. change (key_start (key_of f)) with (estart f). change (key_end (key_of f)) with (eend f).
      now rewrite !Nat.eqb_refl.
    - intros y Hy E. apply andb_prop in E as [E1 E2]. apply skind_eqb_eq in E1.
      destruct (func_sym_out src y Hy E1) as (m' & k' & f' & F' & ->). cbn [def_symbol s_key snd] in E2.
      unfold key_is_range in E2. apply andb_prop in E2 as [E2 E3]. apply Nat.eqb_eq in E2, E3.
      change (key_start (key_of f')) with (estart f') in E2. change (key_end (key_of f')) with (eend f') in E3.
      assert (f' = f) as -> by (apply (func_range_inj src m' k' f' m k f F' F); assumption).
      apply (raw_key_inj src); [exact Hy|now apply func_sym|reflexivity].
  Qed.

  Notation call_words := ["call"; "ref.func"; "return_call"]%string.

  Lemma is_call_iff n : InTree tree n ->
    (kind_eqb (ekind n) PLAIN_INSTR && is_call n = true <-> named_instr n call_words).
  Proof.
    intros T. unfold named_instr, is_call. rewrite andb_true_iff, kind_eqb_eq, existsb_exists. split.
    - intros [K (t & Ht & E)]. split; [exact K|]. apply andb_prop in E as [E E3]. apply andb_prop in E as [E1 E2].
      apply negb_true_iff in E1. apply kind_eqb_eq in E2. destruct (token n INSTR_NAME) as [t'|] eqn:Et.
      + exists t'. split; [reflexivity|]. apply token_some in Et as (H1 & H2 & H3).
        assert (t' = t) as ->.
        { apply (at_most_one_ok src n INSTR_NAME T); auto; rewrite K; [discriminate|vm_compute; reflexivity]. }
        now apply name_in_iff.
      + exfalso. unfold token in Et. pose proof (find_none _ _ Et t Ht) as X. cbn in X. rewrite E1, E2 in X. discriminate.
    - intros [K (t & Et & Hin)]. split; [exact K|]. exists t. apply token_some in Et as (H1 & H2 & H3). split; [exact H1|].
      rewrite H2, H3. cbn [negb andb]. rewrite kind_eqb_refl. now apply name_in_iff.
  Qed.

  Lemma call_operand c o : InTree tree c -> named_instr c call_words -> In o (childs c OPERAND) ->
    InTree tree o /\ is_node o = true /\ Asks o (AModule FuncS) /\ parent o = Some c.
  Proof.
    intros T Nm Ho. destruct (in_tree_childs src c OPERAND o T Ho) as (To & No & _). split; [exact To|]. split; [exact No|].
    apply in_childs in Ho as [Ho _]. apply in_children in Ho as [Ho _]. pose proof (parent_child _ _ Ho) as P.
    split; [|exact P]. now apply Asks_call with c.
  Qed.

  Lemma call_defs o : InTree tree o -> is_node o = true -> Asks o (AModule FuncS) ->
    forall s, In s (match find_defs tb (key_of o) with Some l => l | None => [] end)
      <-> exists m k g, FuncDef src m k g /\ Resolves src o g /\ s = def_symbol m SFunc (N.of_nat k, g).
  Proof.
    intros T N A s. split.
    - intros H. destruct (find_defs tb (key_of o)) as [ds|] eqn:FD; [|destruct H].
      pose proof (find_defs_raw src _ _ _ FD H) as Hs. pose proof FD as FD'. unfold find_defs in FD'.
      destruct (find_key tb (key_of o)) as [r|] eqn:Fr; [|discriminate]. destruct (find_key_in src _ _ Fr) as [Hr Kr].
      destruct (def_kind (s_kind r)) as [dk|] eqn:Dk; [|discriminate]. clear FD'.
      assert (R : is_ref_kind r = true) by (unfold is_ref_kind; destruct (s_kind r); cbn in Dk; congruence || reflexivity).
      destruct (ref_found src o r T N Hr Kr R) as (a & w & e & A' & W & E & ->).
      pose proof (asks_fun o _ _ A A') as <-. cbn [enclosing_of] in E.
      destruct (enclosing_kind src MODULE o e T N E) as (Te & Ne & Ke & De).
      assert (M : in_module o e) by (split; [exact Ke|split; [exact Ne|exact De]]).
      rewrite (find_defs_spec src o FuncS w e T N A W M Te) in FD. injection FD as <-.
      apply in_map_iff in H as ((i & g) & <- & H).
      assert (Hg : In g (map snd (filter (matches FuncS w) (enum 0 (definitions e))))) by (apply in_map_iff; exists (i, g); auto).
      apply (goto_resolves src o FuncS w e g A W M Te) in Hg.
      apply filter_In in H as [H1 H2]. unfold matches in H2. apply andb_prop in H2 as [H2 _]. cbn [snd] in H2.
      apply in_enum in H1 as (j & Hj & Ei). cbn [fst snd] in Hj, Ei. rewrite N.add_0_l in Ei. subst i.
      exists e, j, g. split; [repeat (split; [assumption|]); exact H2|]. split; [exact Hg|reflexivity].
    - intros (m & k & g & F & R & ->). pose proof R as (so & m' & w & A' & W & M & Tm & Hd & De).
      pose proof (asks_fun o _ _ A A') as X. injection X as <-.
      destruct (func_def_in src m k g F) as (Tg & Ng & Dg & _). pose proof F as (Tm2 & Nm2 & Km2 & Hk & Sg).
      assert (m' = m) as ->.
      { unfold definitions_of in Hd. apply filter_In in Hd as [Hd _]. apply in_descendants_of in Hd as [Dd _].
        destruct M as (K1 & N1 & _). apply (module_unique src g); auto. }
      rewrite (find_defs_spec src o FuncS w m T N A W M Tm). apply in_map_iff. exists (N.of_nat k, g). split; [reflexivity|].
      apply filter_In. assert (Hi : In (N.of_nat k, g) (enum 0 (definitions m))) by (apply in_enum; exists k; cbn; split; [exact Hk|lia]).
      split; [exact Hi|]. unfold matches. cbn [fst snd]. rewrite Sg. cbn [andb]. now apply (denotes_iff m).
  Qed.

  Lemma outgoing_ok c : InTree tree c ->
    exists l, outgoing_of src tb c = Ans l
      /\ forall it rs, In (it, rs) l <-> named_instr c call_words /\ exists o g rc,
           In o (childs c OPERAND) /\ Resolves src o g /\ ItemOf src g it /\ RangeOf src c rc /\ rs = [rc].
  Proof.
    intros T. unfold outgoing_of. destruct (kind_eqb (ekind c) PLAIN_INSTR && is_call c) eqn:E.
    2:{ exists []. split; [reflexivity|]. intros it rs. split; [intros []|]. intros [H _]. apply (is_call_iff c T) in H. congruence. }
    apply (is_call_iff c T) in E. destruct (range_of_ok src c T) as (rc & -> & Hrc). cbn [abind].
    set (F := fun s => abind (call_item_of src tb s) (fun i => Ans (i, [rc]))).
    set (L := filter (fun s => skind_eqb (s_kind s) SFunc)
        (flat_map (fun o => match find_defs tb (key_of o) with Some l => l | None => [] end) (childs c OPERAND))).
    assert (HL : forall s, In s L <-> exists o m k g, In o (childs c OPERAND) /\ FuncDef src m k g /\ Resolves src o g /\ s = def_symbol m SFunc (N.of_nat k, g)).
    { intros s. unfold L. rewrite filter_In, in_flat_map. split.
      - intros [(o & Ho & Hs) _]. destruct (call_operand c o T E Ho) as (To & No & Ao & _).
        apply (call_defs o To No Ao) in Hs as (m & k & g & H). exists o, m, k, g. auto.
      - intros (o & m & k & g & Ho & H1 & H2 & ->). split; [|reflexivity]. exists o. split; [exact Ho|].
        destruct (call_operand c o T E Ho) as (To & No & Ao & _). apply (call_defs o To No Ao). eauto 6. }
    destruct (map_ans_total F L) as (l & El).
    { intros s Hs. apply HL in Hs as (o & m & k & g & _ & Fd & _ & ->). destruct (item_ok m k g Fd) as (it & Ei & _).
      unfold F. rewrite Ei. cbn [abind]. eauto. }
    exists l. split; [exact El|]. intros it rs. rewrite (map_ans_in _ _ _ _ El). split.
    - intros (s & Hs & Es). split; [exact E|]. apply HL in Hs as (o & m & k & g & Ho & Fd & R & ->).
      destruct (item_ok m k g Fd) as (it' & Ei & Hi). unfold F in Es. rewrite Ei in Es. cbn [abind] in Es. injection Es as <- <-.
      exists o, g, rc. split; [exact Ho|]. split; [exact R|]. split; [now apply Hi|]. split; [exact Hrc|reflexivity].
    - intros [_ (o & g & rc' & Ho & R & Hi & Hrc' & ->)]. pose proof Hi as (m & k & Fd & _).
      exists (def_symbol m SFunc (N.of_nat k, g)). split; [apply HL; exists o, m, k, g; auto|].
      destruct (item_ok m k g Fd) as (it' & Ei & Hi'). unfold F. rewrite Ei. cbn [abind]. apply Hi' in Hi. subst it'.
      now rewrite (range_fun _ _ _ _ Hrc Hrc').
  Qed.

  Lemma desc_closed S : forallb (fun k => forallb (fun k' => existsb (kind_eqb k') S) (children_of k)) S = true ->
    forall a b, InTree tree a -> Desc a b -> is_node b = true -> In (ekind a) S -> In (ekind b) S.
  Proof.
    intros HS a b Ta D. induction D as [|p c D IH Hc]; intros N Ha; [exact Ha|].
    assert (Np : is_node p = true) by (unfold is_node; unfold children_with_tokens in Hc; destruct (el p); [destruct Hc|reflexivity]).
    specialize (IH Np Ha). assert (Tp : InTree tree p) by (eapply Desc_trans; eassumption).
    assert (Hk : In (ekind c) (children_of (ekind p))) by (apply (child_kind src p c Tp); now apply in_children).
    rewrite forallb_forall in HS. specialize (HS _ IH). rewrite forallb_forall in HS. specialize (HS _ Hk).
    apply existsb_exists in HS as (k & Hk' & E). apply kind_eqb_eq in E. now subst.
  Qed.
  Lemma import_no_instr f c : InTree tree f -> ekind f = IMPORT_DESC_TYPE_USE -> Desc f c -> is_node c = true -> ekind c <> PLAIN_INSTR.
  Proof.
    intros T K D N E. pose proof (desc_closed [IMPORT_DESC_TYPE_USE; TYPE_USE; PARAM; RESULT; VAL_TYPE; INDEX] eq_refl f c T D N) as H.
    rewrite K, E in H. specialize (H (or_introl eq_refl)). cbn in H. intuition discriminate.
  Qed.

  (** The outgoing calls of a function are the calls in its body, each with
      the item of the function called and the range of the call. *)
  Theorem C27_outgoing m k f r : FuncDef src m k f -> RangeOf src f r ->
    exists l, outgoing_calls src r = Ans l
      /\ forall it rs, In (it, rs) l <-> exists c g rc, CallIn src f c g /\ ItemOf src g it /\ RangeOf src c rc /\ rs = [rc].
  Proof.
    intros F R. destruct (func_def_in src m k f F) as (Tf & Nf & D & _ & _ & Pf). pose proof Pf as (_ & _ & K1 & K2).
    unfold outgoing_calls. rewrite symbols_spec. cbn [abind]. rewrite (func_at m k f r F R). cbn [abind def_symbol s_key snd].
    rewrite (to_node_ok src f Tf Nf K1 K2). cbn [amust abind].
    assert (Hd : forall c, In c (descendants f) -> InTree tree c /\ Desc f c).
    { intros c Hc. apply in_descendants_of in Hc as [Dc _]. split; [|exact Dc]. eapply Desc_trans; eassumption. }
    destruct (map_ans_total (outgoing_of src tb) (descendants f)) as (ls & El).
    { intros c Hc. destruct (outgoing_ok c (proj1 (Hd c Hc))) as (l & E & _). eauto. }
    rewrite El. cbn [abind]. eexists. split; [reflexivity|]. intros it rs. rewrite (concat_among _ _ _ _ El). split.
    - intros (c & Hc & l & E & Hl). destruct (Hd c Hc) as [Tc Dc]. destruct (outgoing_ok c Tc) as (l' & E' & H). rewrite E in E'. injection E' as <-.
      apply H in Hl as (Nm & o & g & rc & Ho & Rs & It & Rc & ->). exists c, g, rc.
      split; [|auto]. split.
      + pose proof F as (_ & _ & _ & _ & Sf). apply func_kinds in Sf as [Kf|Kf]; [exact Kf|]. exfalso.
        apply in_descendants_of in Hc as [_ Nc]. destruct Nm as [Kc _].
        apply (import_no_instr f c Tf Kf Dc Nc Kc).
      + split; [exact Dc|]. split; [exact Nm|eauto].
    - intros (c & g & rc & (Kf & Dc & Nm & o & Ho & Rs) & It & Rc & ->).
      assert (Tc : InTree tree c) by (eapply Desc_trans; eassumption).
      assert (Nc : is_node c = true). { unfold is_node. destruct Nm as [_ (t & Ht & _)]. apply token_some in Ht as (Ht & _). unfold children_with_tokens in Ht. destruct (el c); [destruct Ht|reflexivity]. }
      exists c. split; [apply in_descendants_of; auto|]. destruct (outgoing_ok c Tc) as (l' & E' & H). exists l'. split; [exact E'|].
      apply H. split; [exact Nm|]. exists o, g, rc. auto.
  Qed.

  Lemma incoming_ok mg kg g n e w : FuncDef src mg kg g ->
    InTree tree n -> is_node n = true -> Asks n (AModule FuncS) -> Written n w -> enclosing [MODULE] n = Some e ->
    exists l, incoming_of src tb (def_symbol mg SFunc (N.of_nat kg, g)) (ref_sym n e (AModule FuncS) w) = Ans l
      /\ forall it rs, In (it, rs) l <-> Resolves src n g /\ exists f p rp, in_func n f /\ InTree tree f /\ parent n = Some p
                         /\ ItemOf src f it /\ RangeOf src p rp /\ rs = [rp].
  Proof.
    intros Fg T N A W E. destruct (enclosing_kind src MODULE n e T N E) as (Te & Ne & Ke & De).
    assert (M : in_module n e) by (split; [exact Ke|split; [exact Ne|exact De]]).
    assert (Hres : is_defined_by (s_idx (ref_sym n e (AModule FuncS) w)) (s_idx (def_symbol mg SFunc (N.of_nat kg, g)))
                     && key_eqb (s_region (def_symbol mg SFunc (N.of_nat kg, g))) (s_region (ref_sym n e (AModule FuncS) w)) = true
                   <-> Resolves src n g).
    { cbn [ref_sym def_symbol s_idx s_region fst snd]. destruct (func_def_in src mg kg g Fg) as (Tg & Ng & Dg & _ & Hg & _).
      pose proof Fg as (Tm & Nm & Km & Hk & Sg).
      rewrite andb_true_iff, key_eqb_eq, (resolves_iff src n FuncS w e g A W M Te). split.
      - intros [H1 H2]. assert (mg = e) as -> by (apply (key_inj src); auto). split; [exact Hg|].
        apply (denotes_iff e (N.of_nat kg) g w); [|exact H1]. apply in_enum. exists kg. cbn. split; [exact Hk|lia].
      - intros [H1 H2]. assert (mg = e) as ->.
        { unfold definitions_of in H1. apply filter_In in H1 as [H1 _]. apply in_descendants_of in H1 as [D1 _].
          apply (module_unique src g); auto. }
        split; [|reflexivity]. apply (denotes_iff e (N.of_nat kg) g w); [|exact H2]. apply in_enum. exists kg. cbn. split; [exact Hk|lia]. }
    unfold incoming_of. assert (skind_eqb (s_kind (ref_sym n e (AModule FuncS) w)) SCall = true) as -> by reflexivity. cbn [andb].
    destruct (is_defined_by _ _ && key_eqb _ _) eqn:B.
    2:{ exists []. split; [reflexivity|]. intros it rs. split; [intros []|]. intros [H _]. apply Hres in H. congruence. }
    pose proof (proj1 Hres eq_refl) as R. cbn [ref_sym s_key].
    assert (Kn : ekind n <> ROOT /\ ekind n <> BLOCK_IF_THEN).
    { pose proof (asks_operand src n _ T N A) as X. apply orb_prop in X as [X|X]; apply kind_eqb_eq in X; rewrite X; split; discriminate. }
    rewrite (to_node_ok src n T N (proj1 Kn) (proj2 Kn)). cbn [amust abind].
    destruct (enclosing [MODULE_FIELD_FUNC] n) as [f|] eqn:Ef.
    2:{ exists []. split; [reflexivity|]. intros it rs. split; [intros []|]. intros (_ & f & p & rp & F & Tf & _).
        pose proof (enclosing_func src n f T N F Tf). congruence. }
    destruct (enclosing_kind src MODULE_FIELD_FUNC n f T N Ef) as (Tf & Nf & Kf & Df).
    assert (Ff : exists kf, FuncDef src e kf f).
    { assert (Dm : Desc e f).
      { assert (Kr : ekind f <> ROOT) by (rewrite Kf; discriminate).
        destruct (module_ex src f Tf Nf Kr) as (m' & Tm' & Nm' & Km' & Dm').
        assert (e = m') as ->; [|exact Dm']. apply (module_unique src n); auto. eapply Desc_trans; eassumption. }
      assert (Hin : In f (definitions e)).
      { unfold definitions. apply filter_In. split; [apply in_descendants_of; auto|]. unfold is_def, def_sort. now rewrite Kf. }
      apply In_nth_error in Hin as (kf & Hkf). exists kf. repeat (split; [assumption|]). apply func_kinds. now left. }
    destruct Ff as (kf & Ff). pose proof (func_sym src e kf f Ff) as Hs.
    rewrite (find_unique _ _ (def_symbol e SFunc (N.of_nat kf, f))).
    2:{ exact Hs. } 2:{ cbn [def_symbol s_kind s_key snd]. apply key_eqb_eq. reflexivity. }
    2:{ intros y Hy Ey. apply andb_prop in Ey as [_ Ey]. apply key_eqb_eq in Ey. now apply (raw_key_inj src). }
    destruct (asks_parent n _ A) as (p & Pp). rewrite Pp. destruct (parent_children src n p T N Pp) as (Tp & Np & Hc).
    destruct (range_of_ok src p Tp) as (rp & -> & Hrp). cbn [abind].
    destruct (item_ok e kf f Ff) as (it & -> & Hit). cbn [abind]. eexists. split; [reflexivity|].
    intros it' rs. split.
    - intros [H|[]]. injection H as <- <-. split; [exact R|]. exists f, p, rp.
      split; [split; [exact Kf|split; [exact Nf|exact Df]]|]. split; [exact Tf|]. split; [reflexivity|]. split; [now apply Hit|]. split; [exact Hrp|reflexivity].
    - intros (_ & f' & p' & rp' & F' & Tf' & Pp' & It & Hrp' & ->). left.
      pose proof (enclosing_func src n f' T N F' Tf') as X. rewrite Ef in X. injection X as <-. injection Pp' as <-.
      apply Hit in It. subst. now rewrite (range_fun _ _ _ _ Hrp Hrp').
  Qed.

  (** A call in a function is written as an instruction. *)
  Lemma asks_in_func n f : InTree tree n -> is_node n = true -> Asks n (AModule FuncS) -> InTree tree f -> in_func n f ->
    exists c, parent n = Some c /\ InTree tree c /\ is_node c = true /\ Desc f c /\ named_instr c call_words /\ In n (childs c OPERAND).
  Proof.
    intros T N A Tf (Kf & Nf & Df). destruct (asks_parent n _ A) as (p & Pp). destruct (parent_children src n p T N Pp) as (Tp & Np & Hc).
    assert (D : Desc f p).
    { inversion Df as [|p' c' D' Hc']; subst; [exfalso|].
      - pose proof (asks_operand src n _ T N A) as X. rewrite Kf in X. discriminate.
      - apply parent_child in Hc'. congruence. }
    pose proof (desc_closed [MODULE_FIELD_FUNC; IMPORT; EXPORT; TYPE_USE; LOCAL; PLAIN_INSTR;
        BLOCK_BLOCK; BLOCK_LOOP; BLOCK_IF; MODULE_NAME; NAME; INDEX; PARAM;
        RESULT; VAL_TYPE; OPERAND; BLOCK_TYPE; BLOCK_IF_THEN; BLOCK_IF_ELSE] eq_refl f p Tf D Np) as X.
    rewrite Kf in X. specialize (X (or_introl eq_refl)).
    exists p. split; [exact Pp|]. split; [exact Tp|]. split; [exact Np|]. split; [exact D|].
    inversion A as [p' P' H|p' P' H|p' P' H|p' r P' H H'|p' P' H|p' P' H|p' P' H H'|p' P' H H'|p' P' H H'|p' P' H H']; subst; rewrite Pp in P'; injection P' as <-.
    - split; [exact H|]. apply in_childs. split; [exact Hc|].
      pose proof (child_kind src p n Tp Hc) as Y. rewrite (proj1 H) in Y. revert Y. generalize (ekind n). intros k Y. vm_compute in Y. intuition.
    - exfalso. cbn in X. destruct H as [H|[H|[]]]; rewrite <- H in X; intuition discriminate.
  Qed.

  (** The incoming calls of a function are the calls of it in the bodies of
      functions, each with the item of the function it is in and its range. *)
  Theorem C27_incoming m k g r : FuncDef src m k g -> RangeOf src g r ->
    exists l, incoming_calls src r = Ans l
      /\ forall it rs, In (it, rs) l <-> exists c f rc, InTree tree f /\ is_node f = true /\ CallIn src f c g /\ ItemOf src f it /\ RangeOf src c rc /\ rs = [rc].
  Proof.
    intros F R. unfold incoming_calls. rewrite symbols_spec. cbn [abind]. rewrite (func_at m k g r F R). cbn [abind].
    set (gs := def_symbol m SFunc (N.of_nat k, g)).
    assert (Hall : forall s, In s (symbols tb) ->
      (exists n e w, InTree tree n /\ is_node n = true /\ Asks n (AModule FuncS) /\ Written n w /\ enclosing [MODULE] n = Some e /\ s = ref_sym n e (AModule FuncS) w)
      \/ incoming_of src tb gs s = Ans []).
    { intros s Hs. cbn [the_table symbols] in Hs. destruct (skind_eqb (s_kind s) SCall) eqn:K.
      2:{ right. unfold incoming_of. rewrite K. reflexivity. }
      left. apply skind_eqb_eq in K. assert (Rk : is_ref_kind s = true) by (unfold is_ref_kind; now rewrite K).
      destruct (raw_ref_out src s Hs Rk) as (n & a & w & e & T & N & A & W & E & ->).
      destruct a as [so| |]; try discriminate. destruct so; try discriminate. exists n, e, w. auto 7. }
    destruct (map_ans_total (incoming_of src tb gs) (symbols tb)) as (ls & El).
    { intros s Hs. destruct (Hall s Hs) as [(n & e & w & T & N & A & W & E & ->)|E]; [|eauto].
      destruct (incoming_ok m k g n e w F T N A W E) as (l & El & _). eauto. }
    rewrite El. cbn [abind]. eexists. split; [reflexivity|]. intros it rs. rewrite (concat_among _ _ _ _ El). split.
    - intros (s & Hs & l & E0 & Hl). destruct (Hall s Hs) as [(n & e & w & T & N & A & W & E & ->)|E].
      2:{ rewrite E in E0. injection E0 as <-. destruct Hl. }
      destruct (incoming_ok m k g n e w F T N A W E) as (l' & El' & H). unfold gs in E0. rewrite E0 in El'. injection El' as <-.
      apply H in Hl as (Rs & f & p & rp & Fn & Tf & Pp & It & Hrp & ->).
      destruct (asks_in_func n f T N A Tf Fn) as (c & Pc & Tc & Nc & Dc & Nm & Ho). rewrite Pp in Pc. injection Pc as <-.
      exists p, f, rp. split; [exact Tf|]. split; [exact (proj1 (proj2 Fn))|]. split; [|auto].
      split; [exact (proj1 Fn)|]. split; [exact Dc|]. split; [exact Nm|]. exists n. auto.
    - intros (c & f & rc & Tf & Nf & (Kf & Dc & Nm & n & Ho & Rs) & It & Rc & ->).
      assert (Tc : InTree tree c) by (eapply Desc_trans; eassumption).
      destruct (call_operand c n Tc Nm Ho) as (T & N & A & Pp). pose proof Rs as (so & m' & w & A' & W & M & Tm & _).
      pose proof (module_enclosing src n m' T N M Tm) as E.
      exists (ref_sym n m' (AModule FuncS) w). split; [cbn [the_table symbols]; now apply raw_ref_in|].
      destruct (incoming_ok m k g n m' w F T N A W E) as (l & El' & H). exists l. split; [exact El'|]. apply H. split; [exact Rs|].
      exists f, c, rc. split; [|auto].
      split; [exact Kf|]. split; [exact Nf|]. eapply Desc_trans; [exact Dc|]. apply in_childs in Ho as [Ho _]. apply in_children in Ho as [Ho _].
      econstructor; [constructor|exact Ho].
  Qed.

  (** Incoming and outgoing calls agree: [f] lists a call of [g] at [rs] iff
      [g] lists a call from [f] at [rs]. *)
  Theorem C27_agree mf kf f rf itf mg kg g rg itg out inc rs :
    FuncDef src mf kf f -> RangeOf src f rf -> ItemOf src f itf -> outgoing_calls src rf = Ans out ->
    FuncDef src mg kg g -> RangeOf src g rg -> ItemOf src g itg -> incoming_calls src rg = Ans inc ->
    (In (itg, rs) out <-> In (itf, rs) inc).
  Proof.
    intros Ff Rf If Eo Fg Rg Ig Ei. destruct (C27_outgoing mf kf f rf Ff Rf) as (l & El & Hl). rewrite Eo in El. injection El as <-.
    destruct (C27_incoming mg kg g rg Fg Rg) as (l & El & Hl'). rewrite Ei in El. injection El as <-.
    rewrite Hl, Hl'. destruct (func_def_in src mf kf f Ff) as (Tf & Nf & _).
    assert (Uniq : forall h m k h' m' k' it, FuncDef src m k h -> FuncDef src m' k' h' -> ItemOf src h it -> ItemOf src h' it -> h = h').
    { intros h m k h' m' k' it F F' (_ & _ & _ & _ & _ & A & _) (_ & _ & _ & _ & _ & B & _).
      destruct A as [A1 A2], B as [B1 B2]. apply line_col_inv in A1, A2, B1, B2.
      apply (func_range_inj src m k h m' k' h' F F'); congruence. }
    split.
    - intros (c & g' & rc & C & I & Rc & ->). pose proof I as (m' & k' & F' & _).
      assert (g' = g) as -> by (eapply (Uniq g' m' k' g mg kg); eauto). exists c, f, rc. auto 6.
    - intros (c & f' & rc & _ & _ & C & I & Rc & ->). pose proof I as (m' & k' & F' & _).
      assert (f' = f) as -> by (eapply (Uniq f' m' k' f mf kf); eauto). exists c, g, rc. auto 6.
  Qed.
End Doc.
Print Assumptions C27_outgoing.
Print Assumptions C27_incoming.
Print Assumptions C27_agree.

(** A concrete case: [$f] calls [$g] once directly and once in a nested
    instruction. *)
Definition ex_calls : text :=
  Text.T "(module (func $g (result i32) (i32.const 0)) (func $f (drop (call $g)) (call 0) (drop)) (start $f))".
Definition ex_m : elem := nth 1 (descendants (root_of (tree_of ex_calls))) (root_of (tree_of ex_calls)).
Lemma func_def_ex (src : text) m k f : In m (descendants (root_of (tree_of src))) ->
  ekind m = MODULE -> nth_error (definitions m) k = Some f -> has_sort FuncS f = true -> FuncDef src m k f.
Proof.
  intros H K E S. apply in_descendants_of in H as [D N]. repeat (split; [assumption|]). exact S.
Qed.
Example C27_example :
  (exists mf f mg g, FuncDef ex_calls mf 1 f /\ FuncDef ex_calls mg 0 g
     /\ RangeOf ex_calls f ((0, 45), (0, 87)) /\ RangeOf ex_calls g ((0, 8), (0, 44)))
  /\ option_map (map (fun p => (it_name (fst p), snd p))) (match outgoing_calls ex_calls ((0, 45), (0, 87)) with Ans l => Some l | _ => None end)
     = Some [(Text.T "$g", [((0, 60), (0, 69))]); (Text.T "$g", [((0, 71), (0, 79))])]
  /\ option_map (map (fun p => (it_name (fst p), snd p))) (match incoming_calls ex_calls ((0, 8), (0, 44)) with Ans l => Some l | _ => None end)
     = Some [(Text.T "$f", [((0, 60), (0, 69))]); (Text.T "$f", [((0, 71), (0, 79))])].
Proof.
  split; [|split; vm_compute; reflexivity].
  assert (X : exists m f g, In m (descendants (root_of (tree_of ex_calls))) /\ ekind m = MODULE
            /\ nth_error (definitions m) 1 = Some f /\ nth_error (definitions m) 0 = Some g
            /\ (has_sort FuncS f = true /\ has_sort FuncS g = true)
            /\ RangeOf ex_calls f ((0, 45), (0, 87)) /\ RangeOf ex_calls g ((0, 8), (0, 44))).
  { exists ex_m, (nth 1 (definitions ex_m) ex_m), (nth 0 (definitions ex_m) ex_m).
    split; [apply (nth_error_In _ 1); vm_compute; reflexivity|]. split; [vm_compute; reflexivity|].
    split; [vm_compute; reflexivity|]. split; [vm_compute; reflexivity|]. split; [split; vm_compute; reflexivity|].
    split; split; vm_compute; reflexivity. }
  destruct X as (m & f & g & Hm & K & Hf & Hg & [Sf Sg] & Rf & Rg).
  exists m, f, m, g. split; [exact (func_def_ex _ _ _ _ Hm K Hf Sf)|]. split; [exact (func_def_ex _ _ _ _ Hm K Hg Sg)|].
  exact (conj Rf Rg).
Qed.
