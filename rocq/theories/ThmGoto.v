(** Go to declaration (C44) and go to type definition (C45). *)

From Coq Require Import String List NArith Bool Arith Lia.
From Verif Require Import Text Kind Green SpecParser Lexer LexerFacts Winnow Grammar Sem Lossless Total
  Bounds Lang TokForm Shape Red Unique LineIndex Cursor Doc Ast Binder Preorder SpecBinder BinderFacts BinderDefs Blocks
  Nav NavSpec NavFacts ThmNav.
Import ListNotations.

(** ** Specification *)

(** The definitions of sort [s] in module [m] that a reference written [w]
    goes to (C13, C14). *)
Definition targets (m : elem) (s : sort) (w : wref) : list elem :=
  match w with
  | Named x => filter (has_name x) (definitions_of s m)
  | Numbered k =>
      match nth_error (definitions m) (N.to_nat k) with
      | Some d => if has_sort s d then [d] else []
      | None => []
      end
  end.

(** [i] is the index that names the type of definition [d]. *)
Definition TypeIndex (d i : elem) : Prop := exists tu, child d TYPE_USE = Some tu /\ child tu INDEX = Some i.
(** The definitions of the type of [d]: none if it has no type index. *)
Definition TypesOf (m d : elem) (ts : list elem) : Prop :=
  (exists i w, TypeIndex d i /\ Written i w /\ ts = targets m TypeS w)
  \/ ((forall i w, TypeIndex d i -> ~ Written i w) /\ ts = []).

(** ** Proofs *)

Lemma targets_matches m s w : targets m s w = map snd (filter (matches s w) (enum 0 (definitions m))).
Proof. destruct w; cbn [targets]; [now rewrite matches_named|now rewrite matches_numbered]. Qed.

Section Doc.
  Variable src : text.
  Notation tree := (tree_of src).
  Notation tb := (the_table src).

  Lemma ref_module n s0 : InTree tree n -> is_node n = true -> In s0 (raw_symbols (nodes src)) -> s_key s0 = key_of n ->
    is_ref_kind s0 = true ->
    exists a w, Asks n a /\ Written n w /\ exists e, enclosing_of a n = Some e /\ s_kind s0 = ref_kind a
      /\ ekind e <> ROOT /\ InTree tree e /\ is_node e = true /\ Desc e n
      /\ match a with AModule _ => ekind e = MODULE | ALocal => ekind e = MODULE_FIELD_FUNC | ALabel => True end.
  Proof.
    intros T N Hs Hk Hr. destruct (ref_found src n s0 T N Hs Hk Hr) as (a & w & e & A & W & E & ->).
    exists a, w. split; [exact A|]. split; [exact W|]. exists e. split; [exact E|]. split; [reflexivity|].
    destruct a; cbn [enclosing_of] in E; apply enclosing_some in E as [Ea Ek];
      destruct (ancestor_node src _ _ T N Ea) as (Te & De & Ne); cbn in Ek;
      repeat split; auto; intuition congruence.
  Qed.

  Lemma find_defs_out n ss : InTree tree n -> is_node n = true -> find_defs tb (key_of n) = Some ss ->
    exists s w m, Asks n (AModule s) /\ Written n w /\ in_module n m /\ InTree tree m.
  Proof.
    intros T N H. unfold find_defs in H. destruct (find_key tb (key_of n)) as [l|] eqn:El; [|discriminate].
    apply find_key_in in El as [El1 El2].
    destruct (def_kind (s_kind l)) as [dk|] eqn:Ed; [|discriminate].
    assert (Hr : is_ref_kind l = true) by (unfold is_ref_kind; destruct (s_kind l); try discriminate; reflexivity).
    destruct (ref_module n l T N El1 El2 Hr) as (a & w & A & W & e & E & Ek & _ & Te & Ne & De & K).
    destruct a as [s| |]; [|rewrite Ek in Ed; discriminate|rewrite Ek in Ed; discriminate].
    exists s, w, e. repeat split; auto.
  Qed.

  (** With the cursor on a token of a node, going to the definition never
      panics. *)
  Lemma goto_no_panic pos t n : CursorOn src pos t -> parent t = Some n -> goto_definition src pos <> Panics.
  Proof.
    intros C P H. destruct (cursor_node _ _ _ _ C P) as (_ & _ & T & N & _).
    destruct (kind_eqb (ekind n) OPERAND || kind_eqb (ekind n) INDEX) eqn:K.
    2: { unfold goto_definition, cursor_token in H. rewrite C in H. cbn [abind] in H. rewrite P in H. cbn [aopt abind] in H.
         rewrite K in H. discriminate. }
    assert (Hs : exists s, In s (raw_symbols (nodes src)) /\ s_key s = key_of n /\ is_ref_kind s = true).
    { rewrite (goto_start src pos t n C P K) in H.
      destruct (find_param_or_local_def tb (key_of n)) as [s|] eqn:E1.
      - unfold find_param_or_local_def, find_local_ref in E1.
        destruct (find _ _) as [l|] eqn:El in E1; [|discriminate].
        apply find_some in El as [El1 El2]. apply andb_prop in El2 as [El2 El3]. apply key_eqb_eq in El3.
        apply skind_eqb_eq in El2. exists l. split; [exact El1|]. split; [exact El3|]. unfold is_ref_kind. now rewrite El2.
      - clear E1. destruct (find_defs tb (key_of n)) as [ss|] eqn:E2.
        + unfold find_defs in E2. destruct (find_key tb (key_of n)) as [l|] eqn:El; [|discriminate].
          apply find_key_in in El as [El1 El2]. exists l. split; [exact El1|]. split; [exact El2|].
          unfold is_ref_kind. destruct (s_kind l); try discriminate; reflexivity.
        + clear E2. destruct (find_block_def tb (key_of n)) as [s|] eqn:E3; [|discriminate].
          unfold find_block_def, find_block_ref in E3. destruct (find _ (symbols _)) as [l|] eqn:El in E3; [|discriminate].
          apply find_some in El as [El1 El2]. apply andb_prop in El2 as [El2 El3]. apply key_eqb_eq in El3.
          apply skind_eqb_eq in El2. exists l. split; [exact El1|]. split; [exact El3|]. unfold is_ref_kind. now rewrite El2. }
    destruct Hs as (s & Hs1 & Hs2 & Hs3).
    destruct (ref_module n s T N Hs1 Hs2 Hs3) as (a & w & A & W & e & E & _ & _ & Te & Ne & De & Ke).
    destruct a as [s'| |].
    - assert (M : in_module n e) by (split; auto).
      destruct (goto_module src pos t n s' w e C P A W M Te) as (rs & G & _). congruence.
    - assert (F : in_func n e) by (split; auto).
      pose proof (goto_local src pos t n w e C P A W F Te) as G.
      destruct (local_target e w); [destruct G as (r & G & _)|]; congruence.
    - pose proof (goto_label src pos t n w C P A W) as G.
      destruct (label_target (direct_blocks n) w); [destruct G as (r & G & _)|]; congruence.
  Qed.

  (** An index of the type of a definition. *)
  Lemma type_index_facts m d i : InTree tree m -> ekind m = MODULE -> is_node m = true -> In d (definitions m) -> TypeIndex d i ->
    InTree tree i /\ is_node i = true /\ Asks i (AModule TypeS) /\ in_module i m.
  Proof.
    intros Tm Km Nm Hd (tu & H1 & H2). pose proof (child_some _ _ _ H1) as [C1 K1]. pose proof (child_some _ _ _ H2) as [C2 K2].
    apply filter_In in Hd as [Hd _]. apply in_descendants_of in Hd as [D N].
    pose proof (proj1 (in_children _ _) C1) as [C1' N1]. pose proof (proj1 (in_children _ _) C2) as [C2' N2].
    assert (Di : Desc m i) by (econstructor; [econstructor; [exact D|exact C1']|exact C2']).
    split; [eapply Desc_trans; [exact Tm|exact Di]|]. split; [exact N2|]. split.
    - eapply Asks_type_index; [eapply parent_child, C2'|exact K1|exact H2].
    - split; [exact Km|]. split; auto.
  Qed.

  Lemma types_of_def m d s : InTree tree m -> ekind m = MODULE -> is_node m = true -> In d (definitions m) -> s_key s = key_of d ->
    exists ss ts, type_of_def src tb s = Ans ss /\ TypesOf m d ts
      /\ Forall2 (fun s d => s_key s = key_of d /\ pointable src d) ss ts.
  Proof.
    intros Tm Km Nm Hd E. pose proof (def_pointable src m d Tm Hd) as Pd.
    unfold type_of_def. rewrite E. destruct Pd as (Td & Nd & Kd1 & Kd2). rewrite (to_node_ok src) by assumption. cbn [amust abind].
    assert (Hnone : (forall i w, TypeIndex d i -> ~ Written i w) ->
      exists ss ts, @Ans (list symbol) [] = Ans ss /\ TypesOf m d ts
      /\ Forall2 (fun s d => s_key s = key_of d /\ pointable src d) ss ts).
    { intros H. exists [], []. split; [reflexivity|]. split; [now right|constructor]. }
    destruct (child d TYPE_USE) as [tu|] eqn:E1.
    2: { apply Hnone. intros i w (tu & H & _). congruence. }
    destruct (child tu INDEX) as [i|] eqn:E2.
    2: { apply Hnone. intros i w (tu' & H & H'). congruence. }
    assert (TI : TypeIndex d i) by (exists tu; auto).
    destruct (type_index_facts m d i Tm Km Nm Hd TI) as (Ti & Ni & Ai & Mi).
    destruct (find_defs tb (key_of i)) as [l|] eqn:El.
    - destruct (find_defs_out i l Ti Ni El) as (s' & w & m' & A' & W & M' & Tm').
      exists l, (targets m TypeS w). split; [reflexivity|]. split; [left; exists i, w; auto|].
      rewrite (find_defs_spec src i TypeS w m Ti Ni Ai W Mi Tm) in El. injection El as <-. rewrite targets_matches.
      apply Forall2_map_l. apply Forall2_refl_in. intros p Hp. split; [reflexivity|].
      apply filter_In in Hp as [Hp _]. apply (def_pointable src m); [exact Tm|].
      rewrite <- (enum_snd 0 (definitions m)). now apply in_map.
    - apply Hnone. intros i' w (tu' & H & H') W. replace i' with i in * by congruence.
      rewrite (find_defs_spec src i TypeS w m Ti Ni Ai W Mi Tm) in El. discriminate.
  Qed.

  Lemma types_of_defs m ds ss : InTree tree m -> ekind m = MODULE -> is_node m = true ->
    Forall2 (fun s d => s_key s = key_of d /\ In d (definitions m)) ss ds ->
    exists sss tss, map_ans (type_of_def src tb) ss = Ans sss /\ Forall2 (TypesOf m) ds tss
      /\ Forall2 (fun s d => s_key s = key_of d /\ pointable src d) (concat sss) (concat tss).
  Proof.
    intros Tm Km Nm. induction 1 as [|s d ss ds [E Hd] _ (sss & tss & IH1 & IH2 & IH3)].
    - exists [], []. repeat split; constructor.
    - destruct (types_of_def m d s Tm Km Nm Hd E) as (s1 & t1 & E1 & H1 & H2).
      exists (s1 :: sss), (t1 :: tss). cbn [map_ans]. rewrite E1, IH1. cbn [abind concat].
      split; [reflexivity|]. split; [now constructor|now apply Forall2_app].
  Qed.
End Doc.

(** ** C44: go to declaration *)

(** The answer is that of go to definition, for the operands that refer to
    definitions of the module; there is no other answer. *)
Theorem C44_declaration src pos r :
  goto_declaration src pos = Ans r <->
  goto_definition src pos = Ans r /\ (exists l, r = Array l)
  /\ exists t n, CursorOn src pos t /\ parent t = Some n /\ ekind n = OPERAND.
Proof.
  unfold goto_declaration. rewrite symbols_spec. cbn [abind]. split.
  - intros H. destruct (cursor_token src pos) as [t| |] eqn:C; try discriminate. cbn [abind] in H.
    destruct (parent t) as [n|] eqn:P; cbn [aopt abind] in H; [|discriminate].
    destruct (kind_eqb (ekind n) OPERAND) eqn:K; [|discriminate].
    change (CursorOn src pos t) in C. destruct (cursor_node _ _ _ _ C P) as (_ & _ & T & N & _).
    destruct (find_defs (the_table src) (key_of n)) as [ss|] eqn:Ef; [|discriminate].
    destruct (find_defs_out src n ss T N Ef) as (s & w & m & A & W & M & Tm).
    destruct (goto_module src pos t n s w m C P A W M Tm) as (rs & G & _).
    destruct (find_defs_locations src n s w m T N A W M Tm) as (ss' & rs' & E1 & E2 & _).
    rewrite (goto_start src pos t n C P) in G by (rewrite K; reflexivity).
    unfold find_param_or_local_def in G.
    rewrite (find_local_ref_none src n (AModule s) w m) in G
      by (auto; try discriminate; now apply (module_enclosing src)).
    rewrite Ef in G. rewrite Ef in E1. injection E1 as <-. rewrite E2 in G, H. cbn [abind] in G, H. injection G as <-.
    injection H as <-. split; [|split].
    + rewrite (goto_start src pos t n C P) by (rewrite K; reflexivity). unfold find_param_or_local_def.
      rewrite (find_local_ref_none src n (AModule s) w m) by (auto; try discriminate; now apply (module_enclosing src)).
      rewrite Ef, E2. reflexivity.
    + now exists rs'.
    + exists t, n. apply kind_eqb_eq in K. auto.
  - intros (H & (l & ->) & t & n & C & P & K). unfold cursor_token. rewrite C. cbn [abind]. rewrite P. cbn [aopt abind].
    apply kind_eqb_eq in K. rewrite K.
    rewrite (goto_start src pos t n C P) in H by (rewrite K; reflexivity).
    destruct (find_param_or_local_def (the_table src) (key_of n)) as [s|].
    + destruct (create_location src s); discriminate.
    + destruct (find_defs (the_table src) (key_of n)) as [ss|]; [exact H|].
      destruct (find_block_def (the_table src) (key_of n)) as [s|]; [|discriminate].
      destruct (create_location src s); discriminate.
Qed.

(** Both panic exactly when there is no token to look at because the position
    is not one of the document (C39). *)
Theorem C44_panics src pos :
  (goto_declaration src pos = Panics <-> goto_definition src pos = Panics)
  /\ (goto_definition src pos = Panics <->
      find_meaningful_token (new_line_index src) (root_of (tree_of src)) pos = Panics).
Proof.
  assert (H1 : goto_definition src pos = Panics <->
      find_meaningful_token (new_line_index src) (root_of (tree_of src)) pos = Panics).
  { fold (cursor_token src pos). destruct (cursor_token src pos) as [t| |] eqn:C.
    - split; [|discriminate]. intros H. exfalso. destruct (parent t) as [n|] eqn:P.
      + now apply (goto_no_panic src pos t n C P).
      + unfold goto_definition in H. rewrite C in H. cbn [abind] in H. rewrite P in H. discriminate.
    - unfold goto_definition. rewrite C. cbn [abind]. split; discriminate.
    - unfold goto_definition. rewrite C. cbn [abind]. split; reflexivity. }
  split; [|exact H1]. rewrite H1. fold (cursor_token src pos). unfold goto_declaration. rewrite symbols_spec. cbn [abind].
  destruct (cursor_token src pos) as [t| |] eqn:C; cbn [abind]; [|split; discriminate|split; reflexivity].
  split; [|discriminate]. intros H. exfalso. destruct (parent t) as [n|] eqn:P; cbn [aopt abind] in H; [|discriminate].
  destruct (kind_eqb (ekind n) OPERAND); [|discriminate].
  change (CursorOn src pos t) in C. destruct (cursor_node _ _ _ _ C P) as (_ & _ & T & N & _).
  destruct (find_defs (the_table src) (key_of n)) as [ss|] eqn:Ef; [|discriminate].
  destruct (find_defs_out src n ss T N Ef) as (s & w & m & A & W & M & Tm).
  destruct (find_defs_locations src n s w m T N A W M Tm) as (ss' & rs' & E1 & E2 & _).
  rewrite Ef in E1. injection E1 as <-. rewrite E2 in H. discriminate.
Qed.

(** ** C45: go to type definition *)

(** For an operand that refers to definitions of the module: the definitions
    of the types of those definitions, in their order. *)
Theorem C45_type_definition src pos t n p s w m :
  CursorOn src pos t -> parent t = Some n -> parent n = Some p -> ekind p = PLAIN_INSTR ->
  Asks n (AModule s) -> Written n w -> in_module n m -> InTree (tree_of src) m ->
  exists rs tss, goto_type_definition src pos = Ans (Array rs)
    /\ Forall2 (TypesOf m) (targets m s w) tss /\ Forall2 (Shows src) rs (concat tss).
Proof.
  intros C P Pn Kp A W M Tm. destruct (cursor_node _ _ _ _ C P) as (_ & _ & T & N & _).
  unfold goto_type_definition, cursor_token. rewrite symbols_spec, C. cbn [abind]. rewrite P. cbn [aopt abind].
  rewrite (asks_operand src n (AModule s) T N A), Pn. cbn [aopt abind]. rewrite Kp.
  rewrite (proj2 (kind_eqb_eq PLAIN_INSTR PLAIN_INSTR) eq_refl).
  rewrite (find_defs_spec src n s w m T N A W M Tm).
  destruct (types_of_defs src m (targets m s w)
    (map (def_symbol m (sort_kind s)) (filter (matches s w) (enum 0 (definitions m))))) as (sss & tss & E1 & H1 & H2);
    try apply M; [exact Tm| |].
  - rewrite targets_matches. apply Forall2_map_l. apply Forall2_refl_in. intros q Hq. split; [reflexivity|].
    apply filter_In in Hq as [Hq _]. rewrite <- (enum_snd 0 (definitions m)). now apply in_map.
  - rewrite E1. cbn [abind]. destruct (locations_ok src _ _ H2) as (rs & -> & Hr). cbn [abind]. exists rs, tss. auto.
Qed.

(** There is no other answer. *)
Theorem C45_only src pos r :
  goto_type_definition src pos = Ans r ->
  exists t n p s w m, CursorOn src pos t /\ parent t = Some n /\ parent n = Some p /\ ekind p = PLAIN_INSTR
    /\ Asks n (AModule s) /\ Written n w /\ in_module n m /\ InTree (tree_of src) m.
Proof.
  unfold goto_type_definition. rewrite symbols_spec. cbn [abind]. intros H.
  destruct (cursor_token src pos) as [t| |] eqn:C; try discriminate. cbn [abind] in H.
  destruct (parent t) as [n|] eqn:P; cbn [aopt abind] in H; [|discriminate].
  destruct (kind_eqb (ekind n) OPERAND || kind_eqb (ekind n) INDEX); [|discriminate].
  destruct (parent n) as [p|] eqn:Pn; cbn [aopt abind] in H; [|discriminate].
  destruct (kind_eqb (ekind p) PLAIN_INSTR) eqn:Kp; [|discriminate]. apply kind_eqb_eq in Kp.
  change (CursorOn src pos t) in C. destruct (cursor_node _ _ _ _ C P) as (_ & _ & T & N & _).
  destruct (find_defs (the_table src) (key_of n)) as [ss|] eqn:Ef; [|discriminate].
  destruct (find_defs_out src n ss T N Ef) as (s & w & m & A & W & M & Tm).
  exists t, n, p, s, w, m. repeat (split; [assumption|]). assumption.
Qed.

(** ** Cases *)

Definition goto_ex : text :=
  Text.T "(module (type $t (func)) (func $f (type $t)) (func $g) (func (call $f) (call $g) (local.get 0)))".
Example C44_case :
  goto_declaration goto_ex (0, 68) = Ans (Array [((0, 31), (0, 33))])
  /\ goto_declaration goto_ex (0, 41) = NoAns /\ goto_definition goto_ex (0, 41) = Ans (Array [((0, 14), (0, 16))]).
Proof. split; [|split]; vm_compute; reflexivity. Qed.
Example C45_case :
  goto_type_definition goto_ex (0, 68) = Ans (Array [((0, 14), (0, 16))])
  /\ goto_type_definition goto_ex (0, 78) = Ans (Array [])
  /\ goto_type_definition goto_ex (0, 41) = NoAns.
Proof. split; [|split]; vm_compute; reflexivity. Qed.
