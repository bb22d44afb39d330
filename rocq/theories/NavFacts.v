(** The queries of the symbol table in terms of the tree. *)

From Coq Require Import String List NArith Bool Arith Lia.
From Verif Require Import Text Kind Green SpecParser Lexer LexerFacts Winnow Grammar Sem Lossless Total
  Bounds Lang TokForm Shape Red Unique LineIndex Cursor Doc Ast Binder Preorder SpecBinder BinderFacts BinderDefs Blocks
  Nav NavSpec.
Import ListNotations.

Lemma text_eqb_sym a b : text_eqb a b = text_eqb b a.
Proof.
  destruct (text_eqb a b) eqn:E.
  - apply text_eqb_eq in E. subst. symmetry. now apply text_eqb_eq.
  - symmetry. apply not_true_iff_false. intros H. apply text_eqb_eq in H. subst.
    assert (text_eqb a a = true) by now apply text_eqb_eq. congruence.
Qed.
Lemma Forall2_map_l {A B C} (R : B -> C -> Prop) (f : A -> B) l l' :
  Forall2 R (map f l) l' <-> Forall2 (fun x y => R (f x) y) l l'.
Proof.
  revert l'. induction l as [|x l IH]; intros l'; cbn; split; intros H; inversion H; subst; constructor; auto;
    now apply IH.
Qed.
Lemma Forall2_map_r {A B C} (R : A -> C -> Prop) (f : B -> C) l l' :
  Forall2 (fun x y => R x (f y)) l l' -> Forall2 R l (map f l').
Proof. induction 1; cbn; constructor; auto. Qed.
Lemma Forall2_refl_in {A B} (R : A -> B -> Prop) (f : A -> B) l :
  (forall x, In x l -> R x (f x)) -> Forall2 R l (map f l).
Proof.
  induction l as [|x l IH]; intros H; cbn; constructor; [apply H; now left|].
  apply IH. intros y Hy. apply H. now right.
Qed.
Lemma Cov_tlen c g : Cov c g -> tlen g <= tlen c.
Proof.
  induction 1; cbn [tlen] in *; try lia. rewrite !tlen_app in *. cbn [tlen] in *. lia.
Qed.

Section Doc.
  Variable src : text.
  Notation tree := (tree_of src).
  Notation nodes := (nodes src).
  Notation tb := (the_table src).

  Lemma tree_le_src : glen tree <= tlen src.
  Proof.
    destruct (parse_end _ _ _ _ (parse_of src)) as (o & c & d & s1 & E & -> & Hc & _).
    rewrite E, glen_tlen, gtext_node, tlen_app. apply Cov_tlen in Hc. lia.
  Qed.
  Lemma in_tree_range e : InTree tree e -> estart e <= eend e /\ eend e <= tlen src.
  Proof.
    intros H. apply Desc_range in H as [_ H]. unfold eend in *. cbn in H. pose proof tree_le_src.
    unfold estart. lia.
  Qed.
  Lemma range_of_ok e : InTree tree e -> exists r, range_of src e = Ans r /\ RangeOf src e r.
  Proof.
    intros H. apply in_tree_range in H as [H1 H2]. unfold range_of, RangeOf, lsp_range.
    destruct (line_col_total src (estart e)) as (l & c & -> & _); [lia|].
    destruct (line_col_total src (eend e)) as (l' & c' & -> & _); [lia|].
    eexists. split; [reflexivity|split; reflexivity].
  Qed.
  Lemma token_in_tree d k t : InTree tree d -> token d k = Some t -> InTree tree t.
  Proof. intros H E. apply token_some in E as (E & _). econstructor; eauto. Qed.
  Lemma shown_in d : InTree tree d -> InTree tree (shown d).
  Proof.
    intros H. unfold shown. destruct (token d IDENT) eqn:E; [eapply token_in_tree; eauto|].
    destruct (token d KEYWORD) eqn:E2; [eapply token_in_tree; eauto|exact H].
  Qed.
  (** Nodes that symbols can stand for. *)
  Definition pointable (d : elem) : Prop :=
    InTree tree d /\ is_node d = true /\ ekind d <> ROOT /\ ekind d <> BLOCK_IF_THEN.
  Lemma location_ok s d : pointable d -> s_key s = key_of d ->
    exists r, create_location src s = Ans r /\ Shows src r d.
  Proof.
    intros (T & N & K1 & K2) E. unfold create_location. rewrite E, to_node_ok by assumption. cbn [amust abind].
    fold (shown d). apply range_of_ok. now apply shown_in.
  Qed.
  Lemma locations_ok ss ds : Forall2 (fun s d => s_key s = key_of d /\ pointable d) ss ds ->
    exists rs, map_ans (create_location src) ss = Ans rs /\ Forall2 (Shows src) rs ds.
  Proof.
    induction 1 as [|s d ss ds [E P] _ (rs & IH1 & IH2)]; cbn [map_ans].
    - exists []. split; [reflexivity|constructor].
    - destruct (location_ok s d P E) as (r & -> & Hr). rewrite IH1. cbn [abind].
      exists (r :: rs). split; [reflexivity|]. now constructor.
  Qed.

  Lemma symbols_spec : the_symbols src = Ans tb.
  Proof. unfold the_symbols. now rewrite table_spec. Qed.

  Lemma find_key_spec s : In s (raw_symbols nodes) -> find_key tb (s_key s) = Some s.
  Proof. intros H. unfold find_key. cbn [the_table symbols]. now apply find_key_raw. Qed.

  Lemma find_key_kind s (P : symbol -> bool) : In s (raw_symbols nodes) ->
    find (fun x => P x && key_eqb (s_key x) (s_key s)) (symbols tb) = if P s then Some s else None.
  Proof.
    intros H. cbn [the_table symbols]. destruct (P s) eqn:E.
    - apply find_unique; [exact H|now rewrite E, key_eqb_refl|].
      intros y Hy Ey. apply andb_prop in Ey as [_ Ey]. apply key_eqb_eq in Ey. now apply (raw_key_inj src).
    - apply find_absent. intros y Hy. apply not_true_iff_false. intros Ey. apply andb_prop in Ey as [Ey1 Ey].
      apply key_eqb_eq in Ey. assert (y = s) by now apply (raw_key_inj src). congruence.
  Qed.

  (** ** Module-level references *)

  Definition matches (s : sort) (w : wref) (p : N * elem) : bool :=
    has_sort s (snd p) && is_defined_by (widx w) (mk_idx (Some (fst p)) (ident_of (snd p))).

  Lemma module_enclosing n m : InTree tree n -> is_node n = true -> in_module n m -> InTree tree m ->
    enclosing [MODULE] n = Some m.
  Proof. intros T N (K & Nm & D) Tm. now apply (enclosing_module src). Qed.

  Definition ref_sym (n e : elem) (a : asked) (w : wref) : symbol :=
    mk_symbol (key_of n) (el n) (key_of e) (ref_kind a) (widx w).
  Lemma find_key_ref n a w e : InTree tree n -> is_node n = true -> Asks n a -> Written n w -> enclosing_of a n = Some e ->
    find_key tb (key_of n) = Some (ref_sym n e a w).
  Proof.
    intros T N A W E. apply (find_key_spec (ref_sym n e a w)). now apply raw_ref_in.
  Qed.

  Lemma find_defs_spec n s w m : InTree tree n -> is_node n = true -> Asks n (AModule s) -> Written n w ->
    in_module n m -> InTree tree m ->
    find_defs tb (key_of n) = Some (map (def_symbol m (sort_kind s)) (filter (matches s w) (enum 0 (definitions m)))).
  Proof.
    intros T N A W M Tm. pose proof (module_enclosing n m T N M Tm) as E.
    unfold find_defs. rewrite (find_key_ref n (AModule s) w m T N A W E). cbn [ref_sym s_kind s_region s_idx].
    assert (def_kind (ref_kind (AModule s)) = Some (sort_kind s)) as -> by (destruct s; reflexivity).
    f_equal. destruct M as (K & Nm & D).
    rewrite <- (filter_filter (fun x => is_defined_by (widx w) (s_idx x))
                  (fun x => key_eqb (s_region x) (key_of m) && skind_eqb (s_kind x) (sort_kind s))).
    cbn [the_table symbols]. change (fun x => key_eqb (s_region x) (key_of m) && skind_eqb (s_kind x) (sort_kind s)) with (in_region m s).
    rewrite module_defs by assumption. rewrite filter_map, filter_filter. reflexivity.
  Qed.

  Lemma matches_named s x m :
    map snd (filter (matches s (Named x)) (enum 0 (definitions m))) = filter (has_name x) (definitions_of s m).
  Proof.
    unfold definitions_of. rewrite filter_filter.
    assert (E : forall i l, map snd (filter (matches s (Named x)) (enum i (filter is_def l)))
                = filter (fun d => has_sort s d && has_name x d) l).
    { intros i l. revert i. induction l as [|d l IH]; intros i; cbn [filter]; [reflexivity|].
      assert (Hm : forall j, matches s (Named x) (j, d) = has_sort s d && has_name x d).
      { intros j. unfold matches, has_name, ident_of. cbn. destruct (token d IDENT); cbn; [|reflexivity].
        now rewrite text_eqb_sym. }
      destruct (is_def d) eqn:Ed.
      - cbn [enum filter]. rewrite Hm. destruct (has_sort s d && has_name x d); cbn [map snd]; now rewrite IH.
      - assert (has_sort s d = false) as ->.
        { apply not_true_iff_false. intros X. apply has_sort_def in X. congruence. }
        apply IH. }
    apply E.
  Qed.
  Lemma matches_numbered s k m :
    map snd (filter (matches s (Numbered k)) (enum 0 (definitions m)))
    = match nth_error (definitions m) (N.to_nat k) with
      | Some d => if has_sort s d then [d] else []
      | None => []
      end.
  Proof.
    assert (E : forall l i, map snd (filter (matches s (Numbered k)) (enum i l))
                = if N.ltb k i then [] else
                  match nth_error l (N.to_nat (k - i)) with Some d => if has_sort s d then [d] else [] | None => [] end).
    { induction l as [|d l IH]; intros i; cbn [enum filter map].
      - destruct (N.ltb k i); [reflexivity|]. now destruct (N.to_nat (k - i)).
      - unfold matches at 1. cbn [fst snd widx is_defined_by i_num].
        destruct (N.eqb_spec k i) as [->|Hne].
        + rewrite N.ltb_irrefl, N.sub_diag. cbn [nth_error N.to_nat].
          assert (map snd (filter (matches s (Numbered i)) (enum (i + 1) l)) = []) as E'.
          { rewrite IH. destruct (N.ltb_spec i (i + 1)); [reflexivity|lia]. }
          destruct (has_sort s d); cbn [andb map snd]; rewrite ?E'; reflexivity.
        + rewrite andb_false_r, IH. destruct (N.ltb_spec k (i + 1)), (N.ltb_spec k i); try lia; try reflexivity.
          replace (N.to_nat (k - i)) with (S (N.to_nat (k - (i + 1)))) by lia. reflexivity. }
    rewrite E. destruct (N.ltb_spec k 0); [lia|]. now rewrite N.sub_0_r.
  Qed.

  Lemma def_pointable m d : InTree tree m -> In d (definitions m) -> pointable d.
  Proof.
    intros Tm H. apply filter_In in H as [H1 H2]. apply in_descendants_of in H1 as [D N].
    split; [eapply Desc_trans; eassumption|]. split; [exact N|].
    unfold is_def, def_sort in H2. split; intros K; rewrite K in H2; discriminate.
  Qed.
  Lemma find_defs_locations n s w m : InTree tree n -> is_node n = true -> Asks n (AModule s) -> Written n w ->
    in_module n m -> InTree tree m ->
    exists ss rs, find_defs tb (key_of n) = Some ss /\ map_ans (create_location src) ss = Ans rs
      /\ Forall2 (Shows src) rs (map snd (filter (matches s w) (enum 0 (definitions m)))).
  Proof.
    intros T N A W M Tm. exists (map (def_symbol m (sort_kind s)) (filter (matches s w) (enum 0 (definitions m)))).
    destruct (locations_ok (map (def_symbol m (sort_kind s)) (filter (matches s w) (enum 0 (definitions m))))
                (map snd (filter (matches s w) (enum 0 (definitions m))))) as (rs & E1 & E2).
    - apply Forall2_map_l. apply Forall2_refl_in. intros p Hp. split; [reflexivity|].
      apply filter_In in Hp as [Hp _]. apply (def_pointable m); [exact Tm|].
      rewrite <- (enum_snd 0 (definitions m)). now apply in_map.
    - exists rs. split; [now apply find_defs_spec|auto].
  Qed.

  (** ** Locals *)

  Lemma entries_slots d : entries d = slots_of d.
  Proof. reflexivity. Qed.
  Lemma locals_space_slots f : locals_space f = param_slots f ++ local_slots f.
  Proof. reflexivity. Qed.

  Lemma enum_app i a b : enum i (a ++ b) = enum i a ++ enum (i + N.of_nat (length a)) b.
  Proof.
    revert i. induction a as [|x a IH]; intros i; cbn [app enum length].
    - now rewrite N.add_0_r.
    - cbn [app]. f_equal. rewrite IH. do 2 f_equal. lia.
  Qed.
  Lemma find_map {A B} (P : B -> bool) (f : A -> B) l : find P (map f l) = option_map f (find (fun x => P (f x)) l).
  Proof. induction l as [|x l IH]; cbn; [reflexivity|]. destruct (P (f x)); [reflexivity|exact IH]. Qed.
  Lemma find_app' {A} (P : A -> bool) a b :
    find P (a ++ b) = match find P a with Some x => Some x | None => find P b end.
  Proof. induction a as [|x a IH]; cbn; [reflexivity|]. destruct (P x); [reflexivity|exact IH]. Qed.

  Definition slot_kind (f : elem) (i : N) : skind :=
    if N.ltb i (N.of_nat (length (param_slots f))) then SParam else SLocal.
  Definition slot_matches (w : wref) (p : N * elem) : bool :=
    is_defined_by (widx w) (mk_idx (Some (fst p)) (slot_name (snd p))).

  Lemma local_symbols_enum f :
    local_symbols f = map (fun p => slot_symbol f (slot_kind f (fst p)) p) (enum 0 (locals_space f)).
  Proof.
    unfold local_symbols. rewrite locals_space_slots, enum_app, map_app. f_equal; apply map_ext_in.
    - intros p Hp. apply in_enum in Hp as (j & Hj & Ej). unfold slot_kind.
      assert (j < length (param_slots f)) by (apply nth_error_Some; congruence).
      destruct (N.ltb_spec (fst p) (N.of_nat (length (param_slots f)))); [reflexivity|lia].
    - intros p Hp. apply in_enum in Hp as (j & Hj & Ej). unfold slot_kind.
      destruct (N.ltb_spec (fst p) (N.of_nat (length (param_slots f)))); [lia|reflexivity].
  Qed.

  Lemma slot_find w l : forall i,
    option_map snd (find (slot_matches w) (enum i l))
    = match w with
      | Named x => find (slot_has_name x) l
      | Numbered k => if N.ltb k i then None else nth_error l (N.to_nat (k - i))
      end.
  Proof.
    induction l as [|d l IH]; intros i; cbn [enum find option_map].
    - destruct w; [reflexivity|]. destruct (N.ltb k i); [reflexivity|]. now destruct (N.to_nat (k - i)).
    - destruct w as [x|k]; unfold slot_matches at 1; cbn [fst snd widx is_defined_by i_num i_name].
      + unfold slot_has_name at 1. cbn [find].
        destruct (slot_name d) as [y|]; [destruct (text_eqb x y)|]; try reflexivity; apply IH.
      + destruct (N.eqb_spec k i) as [->|Hne].
        * rewrite N.ltb_irrefl, N.sub_diag. reflexivity.
        * rewrite IH. destruct (N.ltb_spec k (i + 1)), (N.ltb_spec k i); try lia; try reflexivity.
          replace (N.to_nat (k - i)) with (S (N.to_nat (k - (i + 1)))) by lia. reflexivity.
  Qed.
  Lemma slot_find_target w f :
    option_map snd (find (slot_matches w) (enum 0 (locals_space f))) = local_target f w.
  Proof.
    rewrite slot_find. unfold local_target. destruct w; [reflexivity|].
    destruct (N.ltb_spec k 0); [lia|]. now rewrite N.sub_0_r.
  Qed.

  Lemma find_local_ref_spec n w f : InTree tree n -> is_node n = true -> Asks n ALocal -> Written n w ->
    enclosing [MODULE_FIELD_FUNC] n = Some f -> find_local_ref tb (key_of n) = Some (ref_sym n f ALocal w).
  Proof.
    intros T N A W E. unfold find_local_ref.
    apply (find_key_kind (ref_sym n f ALocal w) (fun s => skind_eqb (s_kind s) SLocalRef)). now apply raw_ref_in.
  Qed.
  Lemma find_local_ref_none n a w e : InTree tree n -> is_node n = true -> Asks n a -> a <> ALocal -> Written n w ->
    enclosing_of a n = Some e -> find_local_ref tb (key_of n) = None.
  Proof.
    intros T N A Ha W E. unfold find_local_ref.
    pose proof (find_key_kind (ref_sym n e a w) (fun s => skind_eqb (s_kind s) SLocalRef)) as H.
    etransitivity; [apply H; now apply raw_ref_in|].
    cbn. destruct a as [[]| |]; try reflexivity; congruence.
  Qed.

  Lemma func_of f n : InTree tree n -> is_node n = true -> enclosing [MODULE_FIELD_FUNC] n = Some f ->
    InTree tree f /\ is_node f = true /\ ekind f = MODULE_FIELD_FUNC /\ Desc f n.
  Proof.
    intros T N E. apply enclosing_some in E as [E1 [E2|[]]].
    destruct (ancestor_node src _ _ T N E1) as (A & B & C). auto.
  Qed.

  Lemma find_local_def_spec n w f : InTree tree n -> is_node n = true -> Asks n ALocal -> Written n w ->
    enclosing [MODULE_FIELD_FUNC] n = Some f ->
    find_param_or_local_def tb (key_of n)
    = option_map (fun p => slot_symbol f (slot_kind f (fst p)) p) (find (slot_matches w) (enum 0 (locals_space f))).
  Proof.
    intros T N A W E. unfold find_param_or_local_def. rewrite (find_local_ref_spec n w f) by assumption.
    cbn [ref_sym s_region s_idx]. destruct (func_of f n T N E) as (Tf & Nf & Kf & _).
    rewrite find_filter, <- (filter_filter (fun x => is_defined_by (widx w) (s_idx x))
      (fun x => key_eqb (s_region x) (key_of f) && is_param_or_local x)).
    cbn [the_table symbols]. rewrite func_locals by assumption. rewrite <- find_filter, local_symbols_enum, find_map.
    reflexivity.
  Qed.

  Lemma slot_pointable f d : InTree tree f -> ekind f = MODULE_FIELD_FUNC -> In d (locals_space f) -> pointable d.
  Proof.
    intros Tf Kf H. rewrite locals_space_slots in H.
    apply (slot_facts src) in H as (A & B & C & _); [|exact Tf|exact Kf].
    repeat (split; [assumption|]). cbn in C. split; intros K; rewrite K in C; intuition discriminate.
  Qed.
  Lemma find_enum_in w f p : find (slot_matches w) (enum 0 (locals_space f)) = Some p -> In (snd p) (locals_space f).
  Proof.
    intros H. apply find_some in H as [H _]. rewrite <- (enum_snd 0 (locals_space f)). now apply in_map.
  Qed.

  (** ** Labels *)

  Lemma label_find w bs : forall i,
    option_map snd (find (fun p => is_defined_by (widx w) (snd (level p))) (enum i bs))
    = match w with
      | Named x => find (has_name x) bs
      | Numbered k => if N.ltb k i then None else nth_error bs (N.to_nat (k - i))
      end.
  Proof.
    induction bs as [|d l IH]; intros i; cbn [enum find option_map].
    - destruct w; [reflexivity|]. destruct (N.ltb k i); [reflexivity|]. now destruct (N.to_nat (k - i)).
    - destruct w as [x|k]; cbn [level fst snd widx is_defined_by i_num i_name find].
      + unfold has_name at 1, ident_of. destruct (token d IDENT) as [y|]; cbn [option_map].
        * rewrite (text_eqb_sym x). destruct (text_eqb (etext y) x); [reflexivity|apply IH].
        * apply IH.
      + destruct (N.eqb_spec k i) as [->|Hne].
        * rewrite N.ltb_irrefl, N.sub_diag. reflexivity.
        * rewrite IH. destruct (N.ltb_spec k (i + 1)), (N.ltb_spec k i); try lia; try reflexivity.
          replace (N.to_nat (k - i)) with (S (N.to_nat (k - (i + 1)))) by lia. reflexivity.
  Qed.

  Lemma label_parent n : InTree tree n -> is_node n = true -> Asks n ALabel -> exists p, parent n = Some p /\ is_br p = true.
  Proof.
    intros T N A. inversion A as [| | | | |p Hp Hx| | | |]; subst. exists p. split; [exact Hp|].
    assert (Kp : ekind p = PLAIN_INSTR) by apply Hx.
    change (named_instr p br_names) in Hx. apply named_iff in Hx as (t & Ht & Hl); [|exact Kp].
    unfold is_br. rewrite Kp, Ht, Hl. reflexivity.
  Qed.
  Lemma find_block_ref_spec n w b : InTree tree n -> is_node n = true -> Asks n ALabel -> Written n w ->
    enclosing block_kinds n = Some b -> find_block_ref tb (key_of n) = Some (ref_sym n b ALabel w).
  Proof.
    intros T N A W E. unfold find_block_ref.
    apply (find_key_kind (ref_sym n b ALabel w) (fun s => skind_eqb (s_kind s) SBlockRef)). now apply raw_ref_in.
  Qed.
  Lemma find_block_ref_none n a w e : InTree tree n -> is_node n = true -> Asks n a -> a <> ALabel -> Written n w ->
    enclosing_of a n = Some e -> find_block_ref tb (key_of n) = None.
  Proof.
    intros T N A Ha W E. unfold find_block_ref.
    pose proof (find_key_kind (ref_sym n e a w) (fun s => skind_eqb (s_kind s) SBlockRef)) as H.
    etransitivity; [apply H; now apply raw_ref_in|].
    cbn. destruct a as [[]| |]; try reflexivity; congruence.
  Qed.

  Lemma while_block_in l x : In x (while_block l) -> In x l /\ is_block x = true.
  Proof.
    induction l as [|e l IH]; cbn [while_block]; [intros []|]. destruct (is_block e) eqn:E; cbn [In]; [|intros []].
    intros [<-|H]; [auto|]. apply IH in H as [H1 H2]. auto.
  Qed.
  Lemma direct_enclosing n : direct_blocks n
    = match enclosing block_kinds n with Some b => while_block (ancestors b) | None => [] end.
  Proof. reflexivity. Qed.
  Lemma direct_in n b : InTree tree n -> is_node n = true -> In b (direct_blocks n) ->
    InTree tree b /\ is_node b = true /\ is_block b = true /\ Desc b n.
  Proof.
    intros T N H. rewrite direct_enclosing in H. destruct (enclosing block_kinds n) as [b0|] eqn:E; [|destruct H].
    apply enclosing_some in E as [E _]. destruct (ancestor_node src _ _ T N E) as (T0 & D0 & N0).
    apply while_block_in in H as [H1 H2]. destruct (ancestor_node src _ _ T0 N0 H1) as (T1 & D1 & N1).
    repeat (split; [assumption|]). eapply Desc_trans; eassumption.
  Qed.

  Lemma find_block_def_spec n w : InTree tree n -> is_node n = true -> Asks n ALabel -> Written n w ->
    match label_target (direct_blocks n) w with
    | Some b => exists p, parent b = Some p /\ find_block_def tb (key_of n) = Some (block_symbol p b)
    | None => find_block_def tb (key_of n) = None
    end.
  Proof.
    intros T N A W. rewrite direct_enclosing.
    destruct (enclosing block_kinds n) as [b0|] eqn:E.
    - assert (Ef : find (fun t : key * key * idx => match t with (rk, _, i) => key_eqb (key_of n) rk && is_defined_by (widx w) i end) (blocks tb)
                   = option_map (fun p => (key_of n, fst (level p), snd (level p)))
                       (find (fun p => is_defined_by (widx w) (snd (level p))) (enum 0 (while_block (ancestors b0))))).
      { destruct (label_parent n T N A) as (p & Pp & Bp).
        rewrite find_filter.
        rewrite (filter_ext_in' _ (fun t : key * key * idx => key_eqb (key_of n) (fst (fst t)) && is_defined_by (widx w) (snd t)))
          by (intros ((rk & dk) & i) _; reflexivity).
        rewrite <- (filter_filter (fun t : key * key * idx => is_defined_by (widx w) (snd t))).
        rewrite (filter_blocks src n p b0); auto.
        - unfold levels. rewrite map_map, <- find_filter, find_map. reflexivity.
        - intros X. assert (ref_idx n = Some (widx w)) by (apply ref_idx_iff; eauto). congruence. }
      unfold find_block_def. rewrite (find_block_ref_spec n w b0) by assumption. cbn [ref_sym s_idx]. rewrite Ef.
      assert (Ht : option_map snd (find (fun p => is_defined_by (widx w) (snd (level p))) (enum 0 (while_block (ancestors b0))))
                   = label_target (while_block (ancestors b0)) w).
      { rewrite label_find. unfold label_target. destruct w; [reflexivity|].
        destruct (N.ltb_spec k 0); [lia|]. now rewrite N.sub_0_r. }
      rewrite <- Ht.
      destruct (find _ (enum 0 (while_block (ancestors b0)))) as [q|] eqn:Eq; cbn [option_map]; [|reflexivity].
      assert (Hin : In (snd q) (direct_blocks n)).
      { rewrite direct_enclosing, E. apply find_some in Eq as [Eq _].
        rewrite <- (enum_snd 0 (while_block (ancestors b0))). now apply in_map. }
      apply direct_in in Hin as (Tb & Nb & Bb & _); [|exact T|exact N].
      destruct (block_parent src _ Tb Nb Bb) as (pb & Pb & _). exists pb. split; [exact Pb|].
      apply (find_key_spec (block_symbol pb (snd q))). now apply block_symbol_in.
    - cbn. assert (Hl : label_target [] w = None) by (destruct w as [x|k]; cbn; [reflexivity|now destruct (N.to_nat k)]).
      rewrite Hl. unfold find_block_def.
      assert (find_block_ref tb (key_of n) = None) as ->; [|reflexivity].
      unfold find_block_ref. apply find_absent. intros y Hy. apply not_true_iff_false. intros X.
      apply andb_prop in X as [X1 X2]. apply skind_eqb_eq in X1. apply key_eqb_eq in X2.
      destruct (raw_ref_out src y Hy) as (n' & a & w' & e & T' & N' & A' & W' & E' & ->).
      { unfold is_ref_kind. rewrite X1. reflexivity. }
      cbn in X1, X2. assert (n' = n) as -> by (apply (key_inj src); auto).
      destruct a as [[]| |]; try discriminate. cbn [enclosing_of] in E'. congruence.
  Qed.
End Doc.
