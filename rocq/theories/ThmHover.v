(** Hover (C37). *)

From Coq Require Import String List NArith Bool Arith Lia Sorted.
From Verif Require Import Text Kind Green SpecParser Lexer LexerFacts Winnow Grammar Sem Lossless Total
  Bounds Lang TokForm Shape ThmParser Red Unique LineIndex ThmTree Cursor ThmPos Doc Ast Binder Preorder SpecBinder BinderFacts
  BinderDefs Blocks Nav NavSpec NavFacts ThmNav RefFacts ThmRefs SymCases TokKinds InstrMeta Types Check CheckFacts
  CheckMsgs ThmCheck ThmDup SpecTypes SigFacts SpecHeader HeaderFacts Counts SemTok Features ThmStructure Hover SpecHover HoverFacts.
Import ListNotations.

Lemma child_hd e k : child e k = hd_error (childs e k).
Proof. unfold child, childs. induction (children e) as [|c l IH]; cbn; [reflexivity|]. destruct (kind_eqb (ekind c) k); [reflexivity|exact IH]. Qed.
Lemma targets_matches m s w : targets m s w = map snd (filter (matches s w) (enum 0 (definitions m))).
Proof. destruct w as [x|k]; cbn [targets]; symmetry; [apply matches_named|apply matches_numbered]. Qed.
Lemma opt_name_def m k p : opt_name (def_symbol m k p) = named (snd p).
Proof. unfold opt_name, named. cbn [def_symbol s_idx i_name]. unfold ident_of. destruct (token (snd p) IDENT); reflexivity. Qed.

Section Doc.
  Variable src : text.
  Notation tree := (tree_of src).
  Notation nodes := (nodes src).
  Notation tb := (the_table src).

  Lemma func_hover_spec m i d : InTree tree m -> In (i, d) (enum 0 (definitions m)) ->
    exists x, func_hover src tb (def_symbol m SFunc (i, d)) = Ans x /\ forall y, Describes src d FuncS y <-> y = x.
  Proof.
    intros Tm Hi.
    assert (Hin : In d (definitions m)). { apply in_enum in Hi as (j & Hj & _). cbn in Hj. now apply nth_error_In in Hj. }
    pose proof (def_pointable src m d Tm Hin) as Pd. pose proof Pd as (Td & Nd & K1 & K2).
    set (s := def_symbol m SFunc (i, d)).
    destruct (header_spec src d s Pd eq_refl eq_refl eq_refl eq_refl) as (h & Eh & Hh).
    destruct (parent_ex src d Td Nd) as [->|(p & Tp & Np & Hc & Pp)]. { exfalso. apply K1. apply (root_kind src). }
    apply in_children in Hc as [Hc _]. pose proof (docs_spec src d p Tp Pp Hc) as Hd.
    unfold func_hover. change (s_key s) with (key_of d). rewrite (to_node_ok src d Td Nd K1 K2). cbn [amust abind]. rewrite Eh. cbn [abind].
    eexists. split; [reflexivity|]. intros y. split.
    - intros H. inversion H as [h' H1 H2|h' doc H1 H2 H3| | | | |]; subst; apply Hh in H1 as ->; apply Hd in H2.
      + rewrite <- H2. unfold code_block, code, nl. now rewrite app_nil_r.
      + rewrite <- H2. destruct doc as [|c doc]; [congruence|]. reflexivity.
    - intros ->. destruct (doc_of d) as [|c doc] eqn:E.
      + rewrite app_nil_r. apply Describes_func; [now apply Hh|]. apply Hd. now symmetry.
      + apply (Describes_doc src d h (c :: doc)); [now apply Hh|apply Hd; now symmetry|discriminate].
  Qed.
  Lemma type_hover_spec m i d : InTree tree m -> In (i, d) (enum 0 (definitions m)) ->
    exists x, type_hover (def_symbol m SType (i, d)) = Ans x /\ forall y, Describes src d TypeS y <-> y = x.
  Proof.
    intros Tm Hi.
    assert (Hin : In d (definitions m)). { apply in_enum in Hi as (j & Hj & _). cbn in Hj. now apply nth_error_In in Hj. }
    pose proof (def_pointable src m d Tm Hin) as Pd. pose proof Pd as (Td & Nd & K1 & K2).
    unfold type_hover, find_func_type_of_type_def. rewrite opt_name_def. cbn [def_symbol s_kind s_green snd].
    change (skind_eqb SType SType) with true. cbv iota. rewrite green_child_el. destruct (child d FUNC_TYPE) as [ft|] eqn:C; cbn [option_map].
    - pose proof C as C'. apply child_some in C' as [Hc _]. pose proof (in_tree_child src d ft Td Hc) as Tf.
      destruct (sig_parts_ok src ft (tree_part src ft Tf)) as (sg & -> & A). cbn [abind]. eexists. split; [reflexivity|].
      assert (E : match sig_params sg, sig_results sg with [], [] => [] | _, _ => Text.T " " ++ show_sig sg end = concat (map spaced (sig_parts ft))).
      { rewrite <- A. unfold show_sig. destruct (sig_params sg) as [|p0 l0]; [destruct (sig_results sg) as [|r0 l1]|].
        - reflexivity.
        - apply join_concat. discriminate.
        - apply join_concat. discriminate. }
      rewrite E. intros y. split.
      + intros H. inversion H; subst; try congruence. 
      + intros ->. now apply Describes_functype.
    - eexists. split; [reflexivity|]. intros y. split.
      + intros H. inversion H; subst; congruence.
      + intros ->. now apply Describes_type.
  Qed.
  Lemma global_hover_spec m i d : InTree tree m -> In (i, d) (enum 0 (definitions m)) ->
    exists x, global_hover src (def_symbol m SGlobalDef (i, d)) = Ans x /\ forall y, Describes src d GlobalS y <-> y = x.
  Proof.
    intros Tm Hi.
    assert (Hin : In d (definitions m)). { apply in_enum in Hi as (j & Hj & _). cbn in Hj. now apply nth_error_In in Hj. }
    pose proof (def_pointable src m d Tm Hin) as Pd. pose proof Pd as (Td & Nd & K1 & K2).
    unfold global_hover. rewrite opt_name_def. cbn [def_symbol s_kind s_key snd].
    change (skind_eqb SGlobalDef SGlobalDef) with true. cbv iota. rewrite (to_node_ok src d Td Nd K1 K2). cbn [amust abind].
    destruct (child d GLOBAL_TYPE) as [g|] eqn:C.
    - destruct (token g KEYWORD) as [t|] eqn:Tk; cbn [is_some]; (eexists; split; [reflexivity|]); intros y; split.
      + intros H. inversion H as [| | | | | |g' t' C' T']; subst; try congruence. rewrite C in C'. injection C' as <-.
        unfold type_text, spaced. rewrite <- !app_assoc. reflexivity.
      + intros ->. pose proof (Describes_mut src d g t C Tk) as X. unfold type_text, spaced in X. rewrite <- !app_assoc in *. exact X.
      + intros H. inversion H as [| | | | |g' C' T'|]; subst; try congruence. rewrite C in C'. injection C' as <-.
        unfold type_text, spaced. rewrite <- !app_assoc. reflexivity.
      + intros ->. pose proof (Describes_const src d g C Tk) as X. unfold type_text, spaced in X. rewrite <- !app_assoc in *. exact X.
    - eexists. split; [reflexivity|]. intros y. split.
      + intros H. inversion H; subst; try congruence. reflexivity.
      + intros ->. exact (Describes_untyped src d C).
  Qed.

  (** The description of a definition by its sort. *)
  Definition sort_hover (so : sort) (s : symbol) : ans text :=
    match so with FuncS => func_hover src tb s | TypeS => type_hover s | _ => global_hover src s end.
  Definition shown_sort (so : sort) : Prop := so = FuncS \/ so = TypeS \/ so = GlobalS.
  Lemma sort_hover_spec so m i d : shown_sort so -> InTree tree m -> In (i, d) (enum 0 (definitions m)) ->
    exists x, sort_hover so (def_symbol m (sort_kind so) (i, d)) = Ans x /\ forall y, Describes src d so y <-> y = x.
  Proof.
    intros [->|[->| ->]] T H; [now apply func_hover_spec|now apply type_hover_spec|now apply global_hover_spec].
  Qed.
  Lemma sorts_hover_spec so m l : shown_sort so -> InTree tree m -> (forall p, In p l -> In p (enum 0 (definitions m))) ->
    exists xs, map_ans (sort_hover so) (map (def_symbol m (sort_kind so)) l) = Ans xs
      /\ forall ys, Forall2 (fun d y => Describes src d so y) (map snd l) ys <-> ys = xs.
  Proof.
    intros So T H. induction l as [|(i & d) l IH].
    - exists []. split; [reflexivity|]. intros ys. split; [intros F; now inversion F|intros ->; constructor].
    - destruct IH as (xs & E & Hx). { intros p Hp. apply H. now right. }
      destruct (sort_hover_spec so m i d So T (H _ (or_introl eq_refl))) as (x & Ex & Hy).
      exists (x :: xs). cbn [map map_ans]. rewrite Ex. cbn [abind]. rewrite E. cbn [abind snd]. split; [reflexivity|]. intros ys. split.
      + intros F. inversion F as [|? y ? ys' F1 F2]; subst. apply Hy in F1 as ->. apply Hx in F2 as ->. reflexivity.
      + intros ->. constructor; [now apply Hy|now apply Hx].
  Qed.

  (** Parameters and locals. *)
  Lemma slot_hover_spec f i d : InTree tree f -> ekind f = MODULE_FIELD_FUNC -> In (i, d) (enum 0 (locals_space f)) ->
    forall y, DescribesSlot f d y <-> y = slot_hover (local_symbol f (i, d)).
  Proof.
    intros Tf Kf Hi y.
    assert (Hin : In d (locals_space f)). { apply in_enum in Hi as (j & Hj & _). cbn in Hj. now apply nth_error_In in Hj. }
    assert (Hs : In d (param_slots f ++ local_slots f)) by now rewrite <- locals_space_slots.
    destruct (slot_facts src f d Tf Kf Hs) as (Td & Nd & Kd & _ & _).
    assert (Ty : match extract_type (el d) with Some v => Text.T " " ++ show_valtype v | None => [] end
               = if kind_eqb (ekind d) VAL_TYPE then spaced (etext d) else type_text (hd_error (childs d VAL_TYPE))).
    { assert (Kd' : In (ekind d) [VAL_TYPE; PARAM; LOCAL]) by (cbn in *; tauto).
      pose proof (slot_type src d Td Nd Kd') as X. unfold SlotType in X. unfold type_text, spaced.
      destruct (kind_eqb (ekind d) VAL_TYPE) eqn:K.
      - apply kind_eqb_eq in K. destruct (val_types_spell src [d]) as (vs & _ & S).
        { intros e [<-|[]]. split; [now apply tree_part|auto]. }
        unfold Spells in S. destruct vs as [|v [|? ?]]; try discriminate. cbn [map] in S. injection S as S.
        apply X in S as E. now rewrite E, S.
      - destruct (hd_error (childs d VAL_TYPE)) as [v|] eqn:Hv.
        + assert (Hv' : In v (childs d VAL_TYPE)) by (destruct (childs d VAL_TYPE); [discriminate|injection Hv as ->; now left]).
          destruct (val_types_spell src [v]) as (vs & _ & S).
          { intros e [<-|[]]. apply (childs_part src d VAL_TYPE); [now apply tree_part|exact Hv']. }
          unfold Spells in S. destruct vs as [|t [|? ?]]; try discriminate. cbn [map] in S. injection S as S.
          destruct (X t) as [_ X2]. rewrite X2 by eauto. now rewrite S.
        + destruct (extract_type (el d)) as [t|] eqn:E; [|reflexivity]. destruct (proj1 (X t) eq_refl) as (v & Q & _). discriminate. }
    assert (Nm : opt_name (local_symbol f (i, d)) = if kind_eqb (ekind d) VAL_TYPE then [] else named d).
    { unfold opt_name, local_symbol, slot_symbol, named. cbn [s_idx i_name snd]. destruct (kind_eqb (ekind d) VAL_TYPE); [reflexivity|].
      unfold ident_of. destruct (token d IDENT); reflexivity. }
    assert (Pl : DescribesSlot f d y <-> y = slot_text (if N.ltb i (N.of_nat (length (param_slots f))) then Text.T "param" else Text.T "local") d).
    { assert (Ep : param_entries f = param_slots f) by reflexivity. assert (El : local_entries f = local_slots f) by reflexivity.
      apply in_enum in Hi as (j & Hj & Ei). cbn [fst snd] in Hj, Ei. rewrite N.add_0_l in Ei. subst i.
      rewrite locals_space_slots in Hj. pose proof (func_slots_nodup f) as D.
      destruct (N.ltb (N.of_nat j) (N.of_nat (length (param_slots f)))) eqn:L.
      - apply N.ltb_lt in L. rewrite nth_error_app1 in Hj by lia. apply nth_error_In in Hj. split.
        + intros [H|H]; [reflexivity|]. exfalso. rewrite El in H. revert D Hj H. clear. generalize (param_slots f). intros l.
          induction l as [|a l IH]; cbn; [tauto|]. intros D [->|Hj] H; inversion D; subst; [|auto]. apply H2. apply in_or_app. now right.
        + intros ->. apply Describes_param. now rewrite Ep.
      - apply N.ltb_ge in L. rewrite nth_error_app2 in Hj by lia. apply nth_error_In in Hj. split.
        + intros [H|H]; [|reflexivity]. exfalso. rewrite Ep in H. revert D Hj H. clear. generalize (param_slots f). intros l.
          induction l as [|a l IH]; cbn; [tauto|]. intros D Hj [->|H]; inversion D; subst; [|auto]. apply H1. apply in_or_app. now right.
        + intros ->. apply Describes_local. now rewrite El. }
    rewrite Pl. unfold slot_hover, slot_text. rewrite Nm.
    change (s_green (local_symbol f (i, d))) with (el d). rewrite Ty.
    change (s_kind (local_symbol f (i, d))) with (slot_kind f i). unfold slot_kind.
    destruct (N.ltb i (N.of_nat (length (param_slots f)))), (kind_eqb (ekind d) VAL_TYPE); rewrite ?app_nil_r, <- ?app_assoc; reflexivity.
  Qed.
  Lemma slot_hover_in f d : InTree tree f -> is_node f = true -> ekind f = MODULE_FIELD_FUNC -> forall y, DescribesSlot f d y ->
    exists i, In (i, d) (enum 0 (locals_space f)) /\ In (local_symbol f (i, d)) (raw_symbols nodes) /\ y = slot_hover (local_symbol f (i, d)).
  Proof.
    intros T N K y H. assert (Hin : In d (locals_space f)).
    { rewrite locals_space_slots. apply in_or_app. destruct H as [H|H]; [now left|now right]. }
    destruct (slot_found src f d T N K Hin) as (i & Hi & Hs). exists i. split; [exact Hi|]. split; [exact Hs|].
    now apply (slot_hover_spec f i d T K Hi).
  Qed.

  (** ** Declarations *)

  Lemma def_hover_func m p : def_hover src tb (def_symbol m SFunc p) = abind (func_hover src tb (def_symbol m SFunc p)) (fun x => Ans (Markup x)).
  Proof. reflexivity. Qed.
  Lemma def_hover_type m p : def_hover src tb (def_symbol m SType p) = abind (type_hover (def_symbol m SType p)) (fun x => Ans (Snippet x)).
  Proof. reflexivity. Qed.
  Lemma def_hover_global m p : def_hover src tb (def_symbol m SGlobalDef p) = abind (global_hover src (def_symbol m SGlobalDef p)) (fun x => Ans (Snippet x)).
  Proof. reflexivity. Qed.

  Lemma decl_symbol n c : DeclShows src n c ->
    exists s, In s (raw_symbols nodes) /\ s_key s = key_of n /\ is_ref_kind s = false /\ def_hover src tb s = Ans c.
  Proof.
    assert (Z : forall m so x, shown_sort so -> InTree tree m -> is_node m = true -> ekind m = MODULE ->
              In n (definitions_of so m) -> Describes src n so x ->
              exists i, In (def_symbol m (sort_kind so) (i, n)) (raw_symbols nodes) /\ sort_hover so (def_symbol m (sort_kind so) (i, n)) = Ans x).
    { intros m so x S T N K Hd D. destruct (def_found src m so n T N K Hd) as (i & Hi & _ & Hs).
      destruct (sort_hover_spec so m i n S T Hi) as (x' & Ex & Hx). apply Hx in D as ->. eauto. }
    intros [f x T N K D|m x T N K Hd D|m so x S T N K Hd D].
    - destruct (slot_hover_in f n T N K x D) as (i & Hi & Hs & ->). exists (local_symbol f (i, n)). split; [exact Hs|]. split; [reflexivity|].
      unfold def_hover, is_ref_kind. change (s_kind (local_symbol f (i, n))) with (slot_kind f i). unfold slot_kind.
      destruct (N.ltb _ _); split; reflexivity.
    - destruct (Z m FuncS x (or_introl eq_refl) T N K Hd D) as (i & Hs & E). exists (def_symbol m SFunc (i, n)). split; [exact Hs|].
      split; [reflexivity|]. split; [reflexivity|]. rewrite def_hover_func. cbn [sort_hover sort_kind] in E. now rewrite E.
    - destruct (Z m so x (or_intror S) T N K Hd D) as (i & Hs & E). exists (def_symbol m (sort_kind so) (i, n)). split; [exact Hs|].
      split; [reflexivity|].
      destruct S as [-> | ->]; cbn [sort_hover sort_kind] in *; (split; [reflexivity|]); rewrite ?def_hover_type, ?def_hover_global, E; reflexivity.
  Qed.
  Lemma decl_back n s : InTree tree n -> is_node n = true -> In s (raw_symbols nodes) -> s_key s = key_of n ->
    (exists c, def_hover src tb s = Ans c /\ DeclShows src n c) \/ def_hover src tb s = NoAns.
  Proof.
    intros Tn Nn Hs Ek.
    destruct (raw_cases src s Hs) as [m T N K ->|m so i d T N K Hd So ->|f i d T N K Hd ->|bl p T N B P ->|q a w e T N A W E ->].
    - right. reflexivity.
    - assert (Hin : In d (definitions m)). { apply in_enum in Hd as (j & Hj & _). cbn in Hj. now apply nth_error_In in Hj. }
      destruct (def_pointable src m d T Hin) as (Td & Nd & _ & _).
      assert (d = n) as -> by (apply (key_inj src); auto).
      assert (Hdo : In n (definitions_of so m)).
      { unfold definitions in Hin. apply filter_In in Hin as [Hin _]. unfold definitions_of. now apply filter_In. }
      destruct so; cbn [sort_kind]; try (right; reflexivity); left.
      + destruct (func_hover_spec m i n T Hd) as (x & E & Hx). rewrite def_hover_func, E. cbn [abind]. eexists. split; [reflexivity|].
        apply (Decl_func src n m); auto. now apply Hx.
      + destruct (type_hover_spec m i n T Hd) as (x & E & Hx). rewrite def_hover_type, E. cbn [abind]. eexists. split; [reflexivity|].
        apply (Decl_other src n m TypeS); auto. now apply Hx.
      + destruct (global_hover_spec m i n T Hd) as (x & E & Hx). rewrite def_hover_global, E. cbn [abind]. eexists. split; [reflexivity|].
        apply (Decl_other src n m GlobalS); auto. now apply Hx.
    - assert (Hin : In d (locals_space f)). { apply in_enum in Hd as (j & Hj & _). cbn in Hj. now apply nth_error_In in Hj. }
      destruct (slot_pointable src f d T K Hin) as (Td & Nd & _ & _).
      assert (d = n) as -> by (apply (key_inj src); auto). left.
      exists (Snippet (slot_hover (local_symbol f (i, n)))). split.
      + unfold def_hover. change (s_kind (local_symbol f (i, n))) with (slot_kind f i). unfold slot_kind. destruct (N.ltb _ _); reflexivity.
      + apply (Decl_slot src n f); auto. now apply (slot_hover_spec f i n T K Hd).
    - right. reflexivity.
    - right. destruct a as [so| |]; [destruct so|..]; reflexivity.
  Qed.
  Lemma decl_spec n : InTree tree n -> is_node n = true ->
    let a := abind (aopt (find_key tb (key_of n))) (fun s => def_hover src tb s) in
    (forall c, a = Ans c <-> DeclShows src n c) /\ a <> Panics.
  Proof.
    intros T N. cbv zeta.
    assert (F : forall c, DeclShows src n c -> abind (aopt (find_key tb (key_of n))) (fun s => def_hover src tb s) = Ans c).
    { intros c H. destruct (decl_symbol n c H) as (s & Hs & Ek & _ & E). rewrite <- Ek, (find_key_spec src s Hs). exact E. }
    destruct (find_key tb (key_of n)) as [s|] eqn:E; cbn [aopt abind] in *.
    - destruct (find_key_in src _ _ E) as [Hs Ek]. destruct (decl_back n s T N Hs Ek) as [(c & Ec & D)| Ec].
      + split; [|congruence]. intros c'. split; [|apply F]. rewrite Ec. intros X. now injection X as <-.
      + split; [|congruence]. intros c'. split; [congruence|apply F].
    - split; [|discriminate]. intros c. split; [discriminate|apply F].
  Qed.

  (** ** References *)

  Definition at_ref (k : key) : ans contents :=
    match find_param_or_local_def tb k with
    | Some d => Ans (Snippet (slot_hover d))
    | None => abind (aopt (find_key tb k)) (fun s => ref_hover src tb s)
    end.
  Lemma joined_sep x l : x <> [] -> joined x l = sep_by ruler (x :: l).
  Proof.
    revert x. induction l as [|y l IH]; intros x Hx; [reflexivity|]. cbn [joined].
    destruct x as [|c x]; [congruence|]. rewrite IH by discriminate.
    change (sep_by ruler ((c :: x) :: y :: l)) with ((c :: x) ++ ruler ++ sep_by ruler (y :: l)).
    destruct l as [|z l]; [reflexivity|].
    change (sep_by ruler (((c :: x) ++ rule ++ y) :: z :: l)) with (((c :: x) ++ rule ++ y) ++ ruler ++ sep_by ruler (z :: l)).
    change (sep_by ruler (y :: z :: l)) with (y ++ ruler ++ sep_by ruler (z :: l)).
    change rule with ruler. now rewrite <- !app_assoc.
  Qed.
  Lemma joined_funcs ds xs : Forall2 (fun d x => Describes src d FuncS x) ds xs -> joined [] xs = sep_by ruler xs.
  Proof.
    intros F. destruct F as [|d x ds xs H F]; [reflexivity|]. cbn [joined]. apply joined_sep. inversion H; discriminate.
  Qed.
  Lemma local_none n s : In s (raw_symbols nodes) -> s_key s = key_of n -> s_kind s <> SLocalRef ->
    find_param_or_local_def tb (key_of n) = None.
  Proof.
    intros Hs Ek K. unfold find_param_or_local_def. destruct (find_local_ref tb (key_of n)) as [l|] eqn:E; [|reflexivity].
    exfalso. apply find_some in E as [H1 H2]. apply andb_prop in H2 as [H2 H3]. apply skind_eqb_eq in H2. apply key_eqb_eq in H3.
    assert (l = s) as -> by (apply (raw_key_inj src); auto; congruence). congruence.
  Qed.

  Lemma ref_symbol_of n c : InTree tree n -> is_node n = true -> RefShows src n c ->
    exists s, In s (raw_symbols nodes) /\ s_key s = key_of n /\ is_ref_kind s = true.
  Proof.
    intros T N H.
    assert (Z : exists a w e, Asks n a /\ Written n w /\ enclosing_of a n = Some e).
    { destruct H as [w f d x A W F Tf|w m xs A W M Tm|so w m xs _ A W M Tm].
      - exists ALocal, w, f. split; [exact A|]. split; [exact W|]. now apply (enclosing_func src).
      - exists (AModule FuncS), w, m. split; [exact A|]. split; [exact W|]. now apply (module_enclosing src).
      - exists (AModule so), w, m. split; [exact A|]. split; [exact W|]. now apply (module_enclosing src). }
    destruct Z as (a & w & e & A & W & E). exists (ref_sym n e a w). split; [now apply raw_ref_in|]. split; [reflexivity|].
    destruct a as [so| |]; [destruct so|..]; reflexivity.
  Qed.
  Lemma module_ref n so w m : shown_sort so -> InTree tree n -> is_node n = true -> Asks n (AModule so) -> Written n w ->
    in_module n m -> InTree tree m ->
    exists xs, (forall ys, Forall2 (fun d x => Describes src d so x) (targets m so w) ys <-> ys = xs)
      /\ at_ref (key_of n) = Ans (match so with FuncS => Markup (sep_by ruler xs) | _ => Snippets xs end).
  Proof.
    intros S T N A W M Tm. pose proof (module_enclosing src n m T N M Tm) as En.
    destruct (sorts_hover_spec so m (filter (matches so w) (enum 0 (definitions m))) S Tm) as (xs & E & Hx).
    { intros p Hp. now apply filter_In in Hp as [Hp _]. }
    exists xs. rewrite targets_matches. split; [exact Hx|]. unfold at_ref.
    pose proof (raw_ref_in src n (AModule so) w m T N A W En) as Hs.
    rewrite (local_none n _ Hs eq_refl) by (destruct so; discriminate).
    rewrite (find_key_ref src n (AModule so) w m T N A W En). cbn [aopt abind]. unfold ref_hover. cbn [ref_sym s_key s_kind].
    rewrite (find_defs_spec src n so w m T N A W M Tm).
    destruct S as [->|[->| ->]]; cbn [ref_kind sort_hover] in *; (match goal with |- abind ?a _ = _ => replace a with (Ans xs) by (symmetry; exact E) end); cbn [abind]; try reflexivity.
    f_equal. f_equal. eapply joined_funcs. now apply Hx.
  Qed.
  Lemma local_ref n w f : InTree tree n -> is_node n = true -> Asks n ALocal -> Written n w -> in_func n f -> InTree tree f ->
    match local_target f w with
    | Some d => exists x, (forall y, DescribesSlot f d y <-> y = x) /\ at_ref (key_of n) = Ans (Snippet x)
    | None => at_ref (key_of n) = NoAns
    end.
  Proof.
    intros T N A W F Tf. pose proof (enclosing_func src n f T N F Tf) as En. rewrite <- slot_find_target. unfold at_ref.
    rewrite (find_local_def_spec src n w f T N A W En). destruct (find (slot_matches w) (enum 0 (locals_space f))) as [(i & d)|] eqn:E; cbn [option_map snd fst].
    - apply find_some in E as [E _]. exists (slot_hover (local_symbol f (i, d))). split; [|reflexivity].
      intros y. now apply (slot_hover_spec f i d Tf (proj1 F) E).
    - rewrite (find_key_ref src n ALocal w f T N A W En). reflexivity.
  Qed.
  Lemma ref_fwd n c : InTree tree n -> is_node n = true -> RefShows src n c -> at_ref (key_of n) = Ans c.
  Proof.
    intros T N [w f d x A W F Tf L D|w m xs A W M Tm D|so w m xs S A W M Tm D].
    - pose proof (local_ref n w f T N A W F Tf) as X. rewrite L in X. destruct X as (y & H & ->). apply H in D as ->. reflexivity.
    - destruct (module_ref n FuncS w m (or_introl eq_refl) T N A W M Tm) as (ys & H & ->). apply H in D as ->. reflexivity.
    - destruct (module_ref n so w m (or_intror S) T N A W M Tm) as (ys & H & ->). apply H in D as ->.
      destruct S as [-> | ->]; reflexivity.
  Qed.
  Lemma ref_back n : InTree tree n -> is_node n = true ->
    (exists c, at_ref (key_of n) = Ans c /\ RefShows src n c) \/ at_ref (key_of n) = NoAns.
  Proof.
    intros T N. destruct (find_key tb (key_of n)) as [s|] eqn:Ef.
    - destruct (find_key_in src _ _ Ef) as [Hs Ek]. destruct (is_ref_kind s) eqn:R.
      + destruct (ref_found src n s T N Hs Ek R) as (a & w & e & A & W & En & ->). destruct a as [so| |].
        * cbn [enclosing_of] in En. destruct (enclosing_kind src MODULE n e T N En) as (Te & Ne & Ke & De).
          assert (M : in_module n e) by (split; auto).
          destruct so.
          -- left. destruct (module_ref n FuncS w e (or_introl eq_refl) T N A W M Te) as (xs & H & ->). eexists. split; [reflexivity|].
             eapply Ref_func; eauto. now apply H.
          -- left. destruct (module_ref n TypeS w e (or_intror (or_introl eq_refl)) T N A W M Te) as (xs & H & ->). eexists. split; [reflexivity|].
             eapply (Ref_other src n TypeS); eauto. now apply H.
          -- left. destruct (module_ref n GlobalS w e (or_intror (or_intror eq_refl)) T N A W M Te) as (xs & H & ->). eexists. split; [reflexivity|].
             eapply (Ref_other src n GlobalS); eauto. now apply H.
          -- right. unfold at_ref. rewrite (local_none n _ Hs Ek) by discriminate. rewrite Ef. reflexivity.
          -- right. unfold at_ref. rewrite (local_none n _ Hs Ek) by discriminate. rewrite Ef. reflexivity.
        * cbn [enclosing_of] in En. destruct (enclosing_kind src MODULE_FIELD_FUNC n e T N En) as (Te & Ne & Ke & De).
          assert (F : in_func n e) by (split; auto). pose proof (local_ref n w e T N A W F Te) as X.
          destruct (local_target e w) as [d|] eqn:L; [|now right]. left. destruct X as (x & H & ->). eexists. split; [reflexivity|].
          eapply Ref_local; eauto. now apply H.
        * right. unfold at_ref. rewrite (local_none n _ Hs Ek) by discriminate. rewrite Ef. reflexivity.
      + right. unfold at_ref. rewrite (local_none n s Hs Ek) by (intros E; unfold is_ref_kind in R; rewrite E in R; discriminate).
        rewrite Ef. cbn [aopt abind]. unfold ref_hover, is_ref_kind in *. destruct (s_kind s); try discriminate; reflexivity.
    - right. unfold at_ref. rewrite Ef. unfold find_param_or_local_def.
      destruct (find_local_ref tb (key_of n)) as [l|] eqn:E; [|reflexivity]. exfalso. apply find_some in E as [H1 H2].
      apply andb_prop in H2 as [_ H3]. apply key_eqb_eq in H3. pose proof (find_key_spec src l H1) as X. rewrite H3 in X. congruence.
  Qed.
  Lemma key_hover_spec n : InTree tree n -> is_node n = true ->
    (forall c, key_hover src tb (key_of n) = Ans c <-> RefShows src n c \/ DeclShows src n c) /\ key_hover src tb (key_of n) <> Panics.
  Proof.
    intros T N.
    assert (Eq : key_hover src tb (key_of n) = match at_ref (key_of n) with
             NoAns => abind (aopt (find_key tb (key_of n))) (fun s => def_hover src tb s) | a => a end).
    { unfold key_hover, at_ref. destruct (find_param_or_local_def tb (key_of n)); [reflexivity|]. destruct (find_key tb (key_of n)); reflexivity. }
    rewrite Eq. clear Eq. destruct (decl_spec n T N) as [D1 D2].
    assert (Dis : forall c c', RefShows src n c -> DeclShows src n c' -> False).
    { intros c c' R D. destruct (ref_symbol_of n c T N R) as (s & Hs & Ek & K). destruct (decl_symbol n c' D) as (s' & Hs' & Ek' & K' & _).
      assert (s = s') as <- by (apply (raw_key_inj src); auto; congruence). congruence. }
    destruct (ref_back n T N) as [(c & E & R)|E]; rewrite E.
    - split; [|discriminate]. intros c'. split.
      + intros X. injection X as <-. now left.
      + intros [X|X]; [|exfalso; eauto]. apply (ref_fwd n c' T N) in X. congruence.
    - split; [|exact D2]. intros c. rewrite D1. split; [now right|]. intros [X|X]; [|exact X].
      apply (ref_fwd n c T N) in X. congruence.
  Qed.
  Lemma token_hover_spec t n : InTree tree n -> is_node n = true -> parent t = Some n ->
    (forall c, token_hover src t = Ans c <-> TokenShows src t c) /\ token_hover src t <> Panics.
  Proof.
    intros T N P. unfold token_hover. rewrite (symbols_spec src), P. cbn [aopt abind].
    destruct (key_hover_spec n T N) as [K1 K2]. destruct (decl_spec n T N) as [D1 D2]. cbv zeta in D1, D2.
    assert (Other : ~ In (ekind t) [IDENT; INT; UNSIGNED_INT; KEYWORD; NUM_TYPE; VEC_TYPE; REF_TYPE; INSTR_NAME] ->
              (forall c, NoAns = Ans c <-> TokenShows src t c) /\ @NoAns contents <> Panics).
    { intros X. split; [|discriminate]. intros c. split; [discriminate|]. intros H. exfalso. apply X.
      destruct H as [? ? K|? ? K|? K|? K]; cbn in *; intuition. }
    assert (Use : In (ekind t) [IDENT; INT; UNSIGNED_INT] ->
      (forall c, key_hover src tb (key_of n) = Ans c <-> TokenShows src t c) /\ key_hover src tb (key_of n) <> Panics).
    { intros X. split; [|exact K2]. intros c. rewrite K1. split.
      - intros [H|H]; [eapply Tok_ref; eauto|eapply Tok_decl; eauto]. cbn in *; tauto.
      - intros [n' c' K Pn H|n' c' K Pn H|? K|? K].
        + rewrite P in Pn. injection Pn as <-. now left.
        + rewrite P in Pn. injection Pn as <-. now right.
        + exfalso. cbn in X, K. intuition congruence.
        + exfalso. cbn in X, K. intuition congruence. }
    assert (Val : In (ekind t) [NUM_TYPE; VEC_TYPE; REF_TYPE] ->
      (forall c, abind (aopt (value_type_doc (etext t))) (fun d => Ans (Markup (code (etext t) ++ nl ++ nl ++ d))) = Ans c <-> TokenShows src t c)
      /\ abind (aopt (value_type_doc (etext t))) (fun d => Ans (Markup (code (etext t) ++ nl ++ nl ++ d))) <> Panics).
    { intros X. split; [|destruct (value_type_doc (etext t)); discriminate]. intros c. split.
      - destruct (value_type_doc (etext t)) as [d|] eqn:E; cbn [aopt abind]; [|discriminate]. intros H. injection H as <-. now apply Tok_type.
      - intros [n' c' K Pn H|n' c' K Pn H|doc K H|m K H]; try (exfalso; cbn in X, K; intuition congruence).
        rewrite H. reflexivity. }
    destruct (ekind t) eqn:K; try (apply Other; cbn; intuition discriminate); try (apply Use; cbn; tauto); try (apply Val; cbn; tauto).
    - (* KEYWORD *)
      split; [|exact D2]. intros c. rewrite D1. split.
      + intros H. eapply Tok_decl; eauto. rewrite K. cbn. tauto.
      + intros [n' c' X Pn H|n' c' X Pn H|? X|? X]; rewrite K in X; cbn in X; try (exfalso; intuition discriminate).
        rewrite P in Pn. injection Pn as <-. exact H.
    - (* INSTR_NAME *)
      split; [|destruct (meta_of (etext t)); discriminate]. intros c. split.
      + destruct (meta_of (etext t)) as [m|] eqn:E; cbn [aopt abind]; [|discriminate]. intros H. injection H as <-.
        apply meta_row in E. now apply Tok_instr.
      + intros [n' c' X Pn H|n' c' X Pn H|? X|m X H]; rewrite K in X; cbn in X; try (exfalso; intuition discriminate).
        apply meta_row in H. now rewrite H.
  Qed.
End Doc.

Lemma root_node src : is_node (root_of (tree_of src)) = true.
Proof. unfold tree_of, parse. destruct (root false _); reflexivity. Qed.

(** ** C37 *)

(** Hovering shows what the specification says for the token under the
    cursor, with the range of that token, and nothing else. *)
Theorem C37_hover src pos t : CursorOn src pos t ->
  (forall c r, hover src pos = Ans (c, r) <-> TokenShows src t c /\ RangeOf src t r)
  /\ hover src pos <> Panics.
Proof.
  intros C. pose proof C as C'. apply meaningful_in in C' as (x & _ & (T & N) & _).
  inversion T as [|n t' Tn Hc]; subst. { exfalso. now rewrite root_node in N. }
  assert (P : parent t = Some n) by now apply parent_child.
  destruct (cursor_node _ _ _ _ C P) as (_ & _ & _ & Nn & _).
  destruct (token_hover_spec src t n Tn Nn P) as [H1 H2]. destruct (range_of_ok src t T) as (r0 & Er & Hr).
  unfold hover. unfold cursor_token. unfold CursorOn in C. rewrite C. cbn [abind]. destruct (token_hover src t) as [c0| |] eqn:E; cbn [abind].
  - rewrite Er. cbn [abind]. split; [|discriminate]. intros c r. split.
    + intros X. injection X as <- <-. split; [now apply H1|exact Hr].
    + intros [X Y]. apply H1 in X. injection X as ->. now rewrite (range_fun src t r r0 Y Hr).
  - split; [|discriminate]. intros c r. split; [discriminate|]. intros [X _]. apply H1 in X. discriminate.
  - now destruct H2.
Qed.

(** A call of a documented function. *)
Definition ex_hover : text := Text.T "(module
  ;;; Adds one.
  (func $inc (param $x i32) (result i32) local.get $x)
  (global $g (mut i32) (i32.const 0))
  (func (call $inc (global.get $g))))".
Definition ex_hover_doc : text := Text.T "```wat
(func $inc (param $x i32) (result i32))
```
---
Adds one.".
Example C37_hover_case : exists t, CursorOn ex_hover (4, 16) t
  /\ TokenShows ex_hover t (Markup ex_hover_doc) /\ RangeOf ex_hover t ((4, 14), (4, 18)).
Proof.
  destruct (cursor_token ex_hover (4, 16)) as [t| |] eqn:C; [|vm_compute in C; discriminate|vm_compute in C; discriminate].
  exists t. split; [exact C|]. apply (C37_hover ex_hover (4, 16) t C). vm_compute. reflexivity.
Qed.
Example C37_hover_case_global : exists t, CursorOn ex_hover (4, 32) t
  /\ TokenShows ex_hover t (Snippets [Text.T "(global $g (mut i32))"]).
Proof.
  destruct (cursor_token ex_hover (4, 32)) as [t| |] eqn:C; [|vm_compute in C; discriminate|vm_compute in C; discriminate].
  exists t. split; [exact C|].
  apply (proj1 (C37_hover ex_hover (4, 32) t C) (Snippets [Text.T "(global $g (mut i32))"]) ((4, 31), (4, 33))). vm_compute. reflexivity.
Qed.

(** Something is shown even where there is nothing to show: a call of an
    undefined function gets an empty text. *)
Theorem C37_nothing_for_undefined_refuted :
  ~ (forall src pos c r, hover src pos = Ans (c, r) -> c <> Markup [] /\ c <> Snippets []).
Proof.
  intros H. destruct (H (Text.T "(module (func (call $f)))") (0, 20) (Markup []) ((0, 20), (0, 22))) as [X _]; [vm_compute; reflexivity|]. now apply X.
Qed.
