(** Go to definition: properties C12 to C17. *)

From Coq Require Import String List NArith Bool Arith Lia.
From Verif Require Import Text Kind Green SpecParser Lexer LexerFacts Winnow Grammar Sem Lossless Total
  Bounds Lang TokForm Shape Red Unique LineIndex Cursor Doc Ast Binder Preorder SpecBinder BinderFacts BinderDefs Blocks
  Nav NavSpec NavFacts.
Import ListNotations.

(** The cursor on [t] of a node [n]. *)
Lemma cursor_node src pos t n : CursorOn src pos t -> parent t = Some n ->
  InTree (tree_of src) t /\ is_node t = false /\ InTree (tree_of src) n /\ is_node n = true /\ In t (children_with_tokens n).
Proof.
  intros H Hp. apply meaningful_in in H as (x & _ & (T & N) & _). inversion T as [|p c Tp Hc]; subst.
  - discriminate.
  - rewrite (parent_child p) in Hp by exact Hc. injection Hp as <-. repeat (split; [assumption|]).
    split; [|exact Hc]. unfold is_node. unfold children_with_tokens in Hc. destruct (el p); [destruct Hc|reflexivity].
Qed.

Section Doc.
  Variable src : text.
  Notation tree := (tree_of src).
  Notation nodes := (nodes src).
  Notation tb := (the_table src).

  Lemma child_kind_of p k n : child p k = Some n -> ekind n = k.
  Proof. unfold child. intros H. apply find_some in H as [_ H]. now apply kind_eqb_eq in H. Qed.

  Lemma asks_operand n a : InTree tree n -> is_node n = true -> Asks n a ->
    kind_eqb (ekind n) OPERAND || kind_eqb (ekind n) INDEX = true.
  Proof.
    intros T N A.
    assert (Hi : forall p l, parent n = Some p -> named_instr p l -> ekind n = OPERAND).
    { intros p l Hp Hx. assert (Kp : ekind p = PLAIN_INSTR) by apply Hx.
      destruct (parent_children src _ _ T N Hp) as (Tp & Np & Hc). now apply (instr_child_kind src p). }
    destruct A as [p H H'|p H H'|p H H'|p r H H'|p H H'|p H H'|p H _ H'|p H _ H'|p H _ H'|p H _ H'];
      try (rewrite (Hi _ _ H H'); reflexivity); apply child_kind_of in H'; rewrite H'; reflexivity.
  Qed.
  Lemma asks_not_root n a : Asks n a -> InTree tree n -> is_node n = true -> ekind n <> ROOT.
  Proof.
    intros A T N K. pose proof (asks_operand n a T N A) as H. rewrite K in H. discriminate.
  Qed.

  Lemma asks_fun n a a' : Asks n a -> Asks n a' -> a = a'.
  Proof.
    assert (Hd : forall p l l', named_instr p l -> named_instr p l' ->
              forallb (fun x => negb (name_in (T x) l')) l = true -> False).
    { intros p l l' (_ & t & Ht & Hl) (_ & t' & Ht' & Hl') H. rewrite Ht in Ht'. injection Ht' as <-.
      apply in_map_iff in Hl as (x & Ex & Hx). rewrite forallb_forall in H. specialize (H x Hx).
      rewrite Ex in H. apply name_in_iff in Hl'. rewrite Hl' in H. discriminate. }
    assert (Hk : forall p l k, named_instr p l -> In (ekind p) k -> ~ In PLAIN_INSTR k -> False).
    { intros p l k (K & _) H1 H2. rewrite K in H1. auto. }
    assert (Hk' : forall p l k, named_instr p l -> ekind p = k -> k <> PLAIN_INSTR -> False).
    { intros p l k (K & _) H1 H2. congruence. }
    intros A A'.
    destruct A as [p H H'|p H H'|p H H'|p r H H'|p H H'|p H H'|p H H' _|p H H' _|p H H' _|p H H' _];
    destruct A' as [q G G'|q G G'|q G G'|q r' G G'|q G G'|q G G'|q G G' _|q G G' _|q G G' _|q G G' _];
      rewrite H in G; injection G as <-; try reflexivity; exfalso;
      first [ eapply Hd; [exact H'|exact G'|vm_compute; reflexivity]
            | eapply Hk; [exact H'|exact G'|cbn; intuition discriminate]
            | eapply Hk; [exact G'|exact H'|cbn; intuition discriminate]
            | eapply Hk'; [exact H'|exact G'|discriminate]
            | eapply Hk'; [exact G'|exact H'|discriminate]
            | cbn in H', G'; intuition congruence ].
  Qed.

  Lemma func_unique e f f' : Desc f e -> Desc f' e -> InTree tree f -> InTree tree f' ->
    is_node f = true -> is_node f' = true -> ekind f = MODULE_FIELD_FUNC -> ekind f' = MODULE_FIELD_FUNC -> f = f'.
  Proof.
    assert (Hd : forall f, InTree tree f -> is_node f = true -> ekind f = MODULE_FIELD_FUNC -> length (ups f) = 2).
    { intros g T N K. destruct (parent_ex _ _ T N) as [->|(p & Tp & Np & Hc & Pp)].
      - pose proof (root_kind src). congruence.
      - pose proof (parent_kind _ _ _ Tp Hc) as P. rewrite K in P. revert P.
        generalize (eq_refl (ekind p)). generalize (ekind p) at 2 3. intros k E P. vm_compute in P. destruct P as [<-|[]].
        apply in_children in Hc as [Hc _]. rewrite (child_depth _ _ Hc).
        apply (module_parent src) in E; auto. unfold parent in E. destruct (ups p) as [|u r]; [discriminate|].
        injection E as _ _ ->. reflexivity. }
    intros D D' T T' N N' K K'. apply (Desc_same_depth _ _ e); auto. rewrite !Hd; auto.
  Qed.
  Lemma enclosing_func n f : InTree tree n -> is_node n = true -> in_func n f -> InTree tree f ->
    enclosing [MODULE_FIELD_FUNC] n = Some f.
  Proof.
    intros T N (K & Nf & D) Tf. unfold enclosing. pose proof (Desc_ancestors _ _ D) as Ha.
    apply find_unique; [exact Ha|cbn; rewrite K; reflexivity|].
    intros y Hy E. destruct (ancestor_node src _ _ T N Hy) as (Ty & Dy & Ny).
    cbn in E. rewrite orb_false_r in E. apply kind_eqb_eq in E. eapply func_unique; eauto.
  Qed.

  (** What a symbol found under the key of a node says of the node. *)
  Lemma ref_found n s : InTree tree n -> is_node n = true -> In s (raw_symbols nodes) -> s_key s = key_of n ->
    is_ref_kind s = true ->
    exists a w e, Asks n a /\ Written n w /\ enclosing_of a n = Some e /\ s = ref_sym n e a w.
  Proof.
    intros T N Hs E K. destruct (raw_ref_out src s Hs K) as (n' & a & w & e & T' & N' & A & W & He & ->).
    cbn in E. assert (n' = n) as -> by (apply (key_inj src); auto). exists a, w, e. auto.
  Qed.
  Lemma find_key_in k s : find_key tb k = Some s -> In s (raw_symbols nodes) /\ s_key s = k.
  Proof. intros H. apply find_some in H as [H1 H2]. apply key_eqb_eq in H2. auto. Qed.

  Lemma goto_start pos t n : CursorOn src pos t -> parent t = Some n ->
    kind_eqb (ekind n) OPERAND || kind_eqb (ekind n) INDEX = true ->
    goto_definition src pos =
    match find_param_or_local_def tb (key_of n) with
    | Some s => abind (create_location src s) (fun l => Ans (Scalar l))
    | None =>
        match find_defs tb (key_of n) with
        | Some ss => abind (map_ans (create_location src) ss) (fun ls => Ans (Array ls))
        | None =>
            match find_block_def tb (key_of n) with
            | Some s => abind (create_location src s) (fun l => Ans (Scalar l))
            | None => NoAns
            end
        end
    end.
  Proof.
    intros C P K. unfold goto_definition, cursor_token. rewrite C. cbn [abind]. rewrite P. cbn [aopt abind].
    rewrite K, symbols_spec. reflexivity.
  Qed.

  Lemma goto_module pos t n s w m : CursorOn src pos t -> parent t = Some n ->
    Asks n (AModule s) -> Written n w -> in_module n m -> InTree tree m ->
    exists rs, goto_definition src pos = Ans (Array rs)
      /\ Forall2 (Shows src) rs (map snd (filter (matches s w) (enum 0 (definitions m)))).
  Proof.
    intros C P A W M Tm. destruct (cursor_node _ _ _ _ C P) as (_ & _ & T & N & _).
    rewrite (goto_start pos t n C P) by now apply (asks_operand n (AModule s)).
    assert (E : enclosing_of (AModule s) n = Some m) by now apply (module_enclosing src).
    unfold find_param_or_local_def. rewrite (find_local_ref_none src n (AModule s) w m) by (auto; discriminate).
    destruct (find_defs_locations src n s w m T N A W M Tm) as (ss & rs & -> & -> & H). cbn [abind].
    exists rs. auto.
  Qed.
  Lemma goto_local pos t n w f : CursorOn src pos t -> parent t = Some n ->
    Asks n ALocal -> Written n w -> in_func n f -> InTree tree f ->
    match local_target f w with
    | Some d => exists r, goto_definition src pos = Ans (Scalar r) /\ Shows src r d
    | None => goto_definition src pos = NoAns
    end.
  Proof.
    intros C P A W F Tf. destruct (cursor_node _ _ _ _ C P) as (_ & _ & T & N & _).
    rewrite (goto_start pos t n C P) by now apply (asks_operand n ALocal).
    assert (E : enclosing [MODULE_FIELD_FUNC] n = Some f) by now apply enclosing_func.
    rewrite (find_local_def_spec src n w f) by assumption. rewrite <- slot_find_target.
    destruct (find (slot_matches w) (enum 0 (locals_space f))) as [p|] eqn:Ep; cbn [option_map].
    - apply find_enum_in in Ep. destruct (location_ok src (slot_symbol f (slot_kind f (fst p)) p) (snd p)) as (r & -> & Hr).
      + apply (slot_pointable src f); auto. apply F.
      + reflexivity.
      + exists r. auto.
    - unfold find_defs. rewrite (find_key_ref src n ALocal w f) by assumption. cbn [ref_sym s_kind ref_kind def_kind].
      unfold find_block_def. rewrite (find_block_ref_none src n ALocal w f) by (auto; discriminate). reflexivity.
  Qed.
  Lemma goto_label pos t n w : CursorOn src pos t -> parent t = Some n ->
    Asks n ALabel -> Written n w ->
    match label_target (direct_blocks n) w with
    | Some b => exists r, goto_definition src pos = Ans (Scalar r) /\ Shows src r b
    | None => goto_definition src pos = NoAns
    end.
  Proof.
    intros C P A W. destruct (cursor_node _ _ _ _ C P) as (_ & _ & T & N & _).
    rewrite (goto_start pos t n C P) by now apply (asks_operand n ALabel).
    assert (H1 : find_param_or_local_def tb (key_of n) = None /\ find_defs tb (key_of n) = None).
    { unfold find_param_or_local_def, find_defs.
      destruct (enclosing block_kinds n) as [b|] eqn:E.
      - rewrite (find_local_ref_none src n ALabel w b) by (auto; discriminate).
        rewrite (find_key_ref src n ALabel w b) by assumption. auto.
      - assert (Hno : forall s, In s (raw_symbols nodes) -> s_key s = key_of n -> is_ref_kind s = true -> False).
        { intros s Hs Ek Kr. destruct (ref_found n s T N Hs Ek Kr) as (a & w' & e & A' & W' & E' & ->).
          rewrite (asks_fun n a ALabel A' A) in E'.
          cbn [enclosing_of] in E'. congruence. }
        split.
        + destruct (find_local_ref tb (key_of n)) as [s|] eqn:Es; [|reflexivity]. exfalso.
          apply find_some in Es as [Es1 Es2]. apply andb_prop in Es2 as [Es2 Es3]. apply key_eqb_eq in Es3.
          apply skind_eqb_eq in Es2. eapply Hno; eauto. unfold is_ref_kind. rewrite Es2. reflexivity.
        + destruct (find_key tb (key_of n)) as [s|] eqn:Es; [|reflexivity].
          destruct (def_kind (s_kind s)) eqn:Ed; [|reflexivity]. exfalso.
          apply find_key_in in Es as [Es1 Es2]. eapply Hno; eauto. unfold is_ref_kind.
          destruct (s_kind s); try discriminate; reflexivity. }
    destruct H1 as [-> ->].
    pose proof (find_block_def_spec src n w T N A W) as Hb.
    destruct (label_target (direct_blocks n) w) as [b|] eqn:Et.
    - destruct Hb as (p & Pp & ->).
      assert (Hin : In b (direct_blocks n)).
      { unfold label_target in Et. destruct w; [now apply find_some in Et|now apply nth_error_In in Et]. }
      apply (direct_in src) in Hin as (Tb & Nb & Bb & _); auto.
      destruct (location_ok src (block_symbol p b) b) as (r & -> & Hr); [|reflexivity|exists r; auto].
      split; [exact Tb|]. split; [exact Nb|]. apply is_block_kinds in Bb. cbn in Bb.
      split; intros K; rewrite K in Bb; intuition discriminate.
    - rewrite Hb. reflexivity.
  Qed.
End Doc.

(** ** C12: definitions found lie in the reference's own module or function
    and have the right sort *)

(** Where the declarations a reference may go to live. *)
Definition InScope (src : text) (n : elem) (a : asked) (d : elem) : Prop :=
  match a with
  | AModule s => exists m, in_module n m /\ InTree (tree_of src) m /\ In d (definitions_of s m)
  | ALocal => exists f, in_func n f /\ InTree (tree_of src) f /\ In d (locals_space f)
  | ALabel => In d (enclosing_blocks n)
  end.
Definition ranges (r : def_response) : list range :=
  match r with Scalar x => [x] | Array l => l end.

Lemma matches_in s w m d : In d (map snd (filter (matches s w) (enum 0 (definitions m)))) -> In d (definitions_of s m).
Proof.
  intros H. apply in_map_iff in H as (p & <- & H). apply filter_In in H as [H1 H2].
  unfold matches in H2. apply andb_prop in H2 as [H2 _].
  assert (H3 : In (snd p) (definitions m)) by (rewrite <- (enum_snd 0 (definitions m)); now apply in_map).
  unfold definitions in H3. apply filter_In in H3 as [H3 _].
  unfold definitions_of. apply filter_In. auto.
Qed.
Lemma ancestors_trans a b c : In a (ancestors b) -> In b (ancestors c) -> In a (ancestors c).
Proof.
  unfold ancestors. intros Ha [<-|Hb]; [exact Ha|]. right. revert Hb.
  induction (ups c) as [|u r IH]; cbn [ancestors_of]; [intros []|].
  intros [<-|Hb]; [exact Ha|]. right. auto.
Qed.
Lemma direct_enclosing_in n b : In b (direct_blocks n) -> In b (enclosing_blocks n).
Proof.
  unfold direct_blocks, enclosing_blocks.
  destruct (find is_block (ancestors n)) as [b0|] eqn:E; [|intros []].
  intros Hb. apply find_some in E as [E _]. apply while_block_in in Hb as [Hb1 Hb2].
  apply filter_In. split; [|exact Hb2]. eapply ancestors_trans; eauto.
Qed.

Theorem C12_scope_and_sort src pos resp :
  goto_definition src pos = Ans resp ->
  exists t n a w, CursorOn src pos t /\ parent t = Some n /\ Asks n a /\ Written n w
    /\ exists ds, Forall2 (Shows src) (ranges resp) ds /\ Forall (InScope src n a) ds.
Proof.
  intros H. unfold goto_definition in H.
  destruct (cursor_token src pos) as [t| |] eqn:C; try discriminate. cbn [abind] in H.
  destruct (parent t) as [n|] eqn:P; cbn [aopt abind] in H; [|discriminate].
  destruct (kind_eqb (ekind n) OPERAND || kind_eqb (ekind n) INDEX) eqn:K; [|discriminate].
  rewrite symbols_spec in H. cbn [abind] in H.
  change (CursorOn src pos t) in C. destruct (cursor_node _ _ _ _ C P) as (_ & _ & T & N & _).
  assert (Hs : exists s, In s (raw_symbols (nodes src)) /\ s_key s = key_of n /\ is_ref_kind s = true).
  { destruct (find_param_or_local_def (the_table src) (key_of n)) as [s|] eqn:E1.
    - unfold find_param_or_local_def, find_local_ref in E1.
      destruct (find _ _) as [l|] eqn:El in E1; [|discriminate].
      apply find_some in El as [El1 El2]. apply andb_prop in El2 as [El2 El3]. apply key_eqb_eq in El3.
      apply skind_eqb_eq in El2. exists l. split; [exact El1|]. split; [exact El3|]. unfold is_ref_kind. now rewrite El2.
    - clear E1. destruct (find_defs (the_table src) (key_of n)) as [ss|] eqn:E2.
      + unfold find_defs in E2. destruct (find_key (the_table src) (key_of n)) as [l|] eqn:El; [|discriminate].
        apply find_key_in in El as [El1 El2]. exists l. split; [exact El1|]. split; [exact El2|].
        unfold is_ref_kind. destruct (s_kind l); try discriminate; reflexivity.
      + clear E2. destruct (find_block_def (the_table src) (key_of n)) as [s|] eqn:E3; [|discriminate].
        unfold find_block_def, find_block_ref in E3. destruct (find _ (symbols _)) as [l|] eqn:El in E3; [|discriminate].
        apply find_some in El as [El1 El2]. apply andb_prop in El2 as [El2 El3]. apply key_eqb_eq in El3.
        apply skind_eqb_eq in El2. exists l. split; [exact El1|]. split; [exact El3|]. unfold is_ref_kind. now rewrite El2. }
  destruct Hs as (s & Hs1 & Hs2 & Hs3).
  destruct (ref_found src n s T N Hs1 Hs2 Hs3) as (a & w & e & A & W & E & _).
  exists t, n, a, w. repeat (split; [assumption|]).
  assert (Hg : goto_definition src pos = Ans resp).
  { rewrite (goto_start src pos t n C P K). exact H. }
  destruct a as [s'| |]; cbn [enclosing_of] in E.
  - apply enclosing_some in E as [Ea [Ek|[]]]. destruct (ancestor_node src _ _ T N Ea) as (Te & De & Ne).
    assert (M : in_module n e) by (split; [now symmetry|split; auto]).
    destruct (goto_module src pos t n s' w e C P A W M Te) as (rs & G & F).
    rewrite G in Hg. injection Hg as <-. eexists. split; [exact F|].
    apply Forall_forall. intros d Hd. apply matches_in in Hd. exists e. auto.
  - apply enclosing_some in E as [Ea [Ek|[]]]. destruct (ancestor_node src _ _ T N Ea) as (Te & De & Ne).
    assert (F : in_func n e) by (split; [now symmetry|split; auto]).
    pose proof (goto_local src pos t n w e C P A W F Te) as G.
    destruct (local_target e w) as [d|] eqn:El; [|congruence]. destruct G as (r & G & Sr).
    rewrite G in Hg. injection Hg as <-. exists [d]. split; [constructor; [exact Sr|constructor]|].
    constructor; [|constructor]. exists e. split; [exact F|]. split; [exact Te|].
    unfold local_target in El. destruct w; [now apply find_some in El|now apply nth_error_In in El].
  - pose proof (goto_label src pos t n w C P A W) as G.
    destruct (label_target (direct_blocks n) w) as [d|] eqn:El; [|congruence]. destruct G as (r & G & Sr).
    rewrite G in Hg. injection Hg as <-. exists [d]. split; [constructor; [exact Sr|constructor]|].
    constructor; [|constructor]. apply direct_enclosing_in.
    unfold label_target in El. destruct w; [now apply find_some in El|now apply nth_error_In in El].
Qed.

(** Every reference lies in exactly one module. *)
Theorem C12_one_module src n a : InTree (tree_of src) n -> is_node n = true -> Asks n a ->
  exists m, in_module n m /\ InTree (tree_of src) m
    /\ forall m', in_module n m' -> InTree (tree_of src) m' -> m' = m.
Proof.
  intros T N A. destruct (module_ex src n T N) as (m & Tm & Nm & Km & Dm); [eapply (asks_not_root src); eauto|].
  exists m. split; [split; auto|]. split; [exact Tm|].
  intros m' (K' & N' & D') T'. eapply (module_unique src); eauto.
Qed.

(** ** C13: a named reference resolves to exactly the definitions of its name *)

Theorem C13_named_definitions src pos t n s x m :
  CursorOn src pos t -> parent t = Some n ->
  Asks n (AModule s) -> Written n (Named x) -> in_module n m -> InTree (tree_of src) m ->
  exists rs, goto_definition src pos = Ans (Array rs)
    /\ Forall2 (Shows src) rs (filter (has_name x) (definitions_of s m)).
Proof.
  intros C P A W M Tm. rewrite <- matches_named. now apply (goto_module src pos t n s (Named x) m).
Qed.

(** ** C14: numbers *)

Theorem C14_counts_all_definitions src pos t n s k m :
  CursorOn src pos t -> parent t = Some n ->
  Asks n (AModule s) -> Written n (Numbered k) -> in_module n m -> InTree (tree_of src) m ->
  exists rs, goto_definition src pos = Ans (Array rs)
    /\ Forall2 (Shows src) rs
         match nth_error (definitions m) (N.to_nat k) with
         | Some d => if has_sort s d then [d] else []
         | None => []
         end.
Proof.
  intros C P A W M Tm. rewrite <- matches_numbered. now apply (goto_module src pos t n s (Numbered k) m).
Qed.
(** The property, for modules with one index space. *)
Theorem C14_one_index_space src pos t n s k m :
  CursorOn src pos t -> parent t = Some n ->
  Asks n (AModule s) -> Written n (Numbered k) -> in_module n m -> InTree (tree_of src) m ->
  definitions m = definitions_of s m ->
  exists rs, goto_definition src pos = Ans (Array rs)
    /\ Forall2 (Shows src) rs
         match nth_error (definitions_of s m) (N.to_nat k) with Some d => [d] | None => [] end.
Proof.
  intros C P A W M Tm E. destruct (C14_counts_all_definitions src pos t n s k m C P A W M Tm) as (rs & G & F).
  exists rs. split; [exact G|]. rewrite E in F.
  destruct (nth_error (definitions_of s m) (N.to_nat k)) as [d|] eqn:Ed; [|exact F].
  apply nth_error_In in Ed. unfold definitions_of in Ed. apply filter_In in Ed as [_ Ed]. rewrite Ed in F. exact F.
Qed.

(** ** C15: parameters and locals *)

Theorem C15_locals src pos t n w f :
  CursorOn src pos t -> parent t = Some n ->
  Asks n ALocal -> Written n w -> in_func n f -> InTree (tree_of src) f ->
  match local_target f w with
  | Some d => exists r, goto_definition src pos = Ans (Scalar r) /\ Shows src r d
  | None => goto_definition src pos = NoAns
  end.
Proof. apply goto_local. Qed.

(** ** C16: labels *)

Theorem C16_labels src pos t n w :
  CursorOn src pos t -> parent t = Some n -> Asks n ALabel -> Written n w ->
  match label_target (direct_blocks n) w with
  | Some b => exists r, goto_definition src pos = Ans (Scalar r) /\ Shows src r b
  | None => goto_definition src pos = NoAns
  end.
Proof. apply goto_label. Qed.
(** The chain consists of the innermost block, loop or if around the branch
    and of its parents as long as they are blocks; all of them enclose it. *)
Theorem C16_chain src n : InTree (tree_of src) n -> is_node n = true ->
  (exists k, direct_blocks n = firstn k (enclosing_blocks n))
  /\ (enclosing_blocks n <> [] -> direct_blocks n <> [])
  /\ Forall (fun b => is_node b = true /\ is_block b = true /\ Desc b n) (direct_blocks n)
  /\ forall i b c, nth_error (direct_blocks n) i = Some b -> nth_error (direct_blocks n) (S i) = Some c ->
       parent b = Some c.
Proof.
  intros T N. split; [|split; [|split]].
  - unfold direct_blocks, enclosing_blocks. destruct (find is_block (ancestors n)) as [b|] eqn:E; [|exists 0; reflexivity].
    assert (Hw : forall l, exists k, while_block l = firstn k (filter is_block l)).
    { induction l as [|e l IH]; [exists 0; reflexivity|]. cbn [while_block filter].
      destruct (is_block e); [|exists 0; reflexivity]. destruct IH as (k & ->). exists (S k). reflexivity. }
    assert (Hf : filter is_block (ancestors n) = filter is_block (ancestors b)).
    { assert (G : forall us e, find is_block (e :: ancestors_of us) = Some b -> ancestors e = e :: ancestors_of us ->
                 filter is_block (e :: ancestors_of us) = filter is_block (ancestors b)).
      { induction us as [|u r IH]; intros e; cbn [ancestors_of]; intros H Hanc.
        - cbn [find] in H. destruct (is_block e) eqn:Be; [|discriminate]. injection H as <-. now rewrite Hanc.
        - cbn [find] in H. destruct (is_block e) eqn:Be.
          + injection H as <-. now rewrite Hanc.
          + cbn [filter]. rewrite Be. apply IH; [exact H|]. reflexivity. }
      apply (G (ups n) n E). reflexivity. }
    rewrite Hf. apply Hw.
  - unfold direct_blocks, enclosing_blocks. destruct (find is_block (ancestors n)) as [b|] eqn:E.
    + apply find_some in E as [_ E]. intros _. unfold ancestors. cbn [while_block]. rewrite E. discriminate.
    + intros H _. apply H. apply filter_none. intros x Hx. eapply find_none in E; eauto.
  - apply Forall_forall. intros b Hb. now apply (direct_in src n b T N) in Hb.
  - unfold direct_blocks. destruct (find is_block (ancestors n)) as [b0|]; [|intros [|i] b c H; discriminate].
    unfold ancestors. intros i b c.
    assert (G : forall us e i, ancestors e = e :: ancestors_of us ->
               nth_error (while_block (e :: ancestors_of us)) i = Some b ->
               nth_error (while_block (e :: ancestors_of us)) (S i) = Some c -> parent b = Some c).
    { induction us as [|u r IH]; intros e j Hanc H1 H2; cbn [ancestors_of while_block] in *;
        destruct (is_block e); try (destruct j; discriminate).
      - destruct j as [|j].
        + cbn [nth_error] in H1. injection H1 as <-. cbn [nth_error] in H2.
          destruct (is_block _); [|discriminate]. cbn [nth_error] in H2. injection H2 as <-.
          unfold parent. unfold ancestors in Hanc. injection Hanc as Hanc.
          destruct (ups e) as [|u' r']; cbn [ancestors_of] in Hanc; [discriminate|]. injection Hanc as E1 E2 E3 _.
          subst r'. rewrite E1, E2. reflexivity.
        + apply (IH (mk_elem (u_green u) (u_off u) r) j); [reflexivity|exact H1|exact H2]. }
    apply (G (ups b0) b0 i). reflexivity.
Qed.

(** ** C17: when only blocks lie between, every enclosing label resolves *)

Theorem C17_direct_nesting src pos t n w :
  CursorOn src pos t -> parent t = Some n -> Asks n ALabel -> Written n w ->
  direct_blocks n = enclosing_blocks n ->
  match label_target (enclosing_blocks n) w with
  | Some b => exists r, goto_definition src pos = Ans (Scalar r) /\ Shows src r b
  | None => goto_definition src pos = NoAns
  end.
Proof. intros C P A W <-. now apply (goto_label src pos t n w). Qed.

(** ** Examples and refutations *)

Definition cur (src : text) (pos : nat * nat) : elem :=
  match cursor_token src pos with Ans t => t | _ => root_of (tree_of src) end.
Definition par (e : elem) : elem := match parent e with Some p => p | None => e end.
Definition enc (k : kind) (e : elem) : elem := match enclosing [k] e with Some p => p | None => e end.

Lemma ex_module src pos t n m : CursorOn src pos t -> parent t = Some n -> enclosing [MODULE] n = Some m ->
  in_module n m /\ InTree (tree_of src) m.
Proof.
  intros C P E. destruct (cursor_node _ _ _ _ C P) as (_ & _ & T & N & _).
  apply enclosing_some in E as [E [K|[]]]. destruct (ancestor_node src _ _ T N E) as (A & B & D).
  split; [split; auto|exact A].
Qed.
Lemma ex_func src pos t n m : CursorOn src pos t -> parent t = Some n -> enclosing [MODULE_FIELD_FUNC] n = Some m ->
  in_func n m /\ InTree (tree_of src) m.
Proof.
  intros C P E. destruct (cursor_node _ _ _ _ C P) as (_ & _ & T & N & _).
  apply enclosing_some in E as [E [K|[]]]. destruct (ancestor_node src _ _ T N E) as (A & B & D).
  split; [split; auto|exact A].
Qed.
Ltac by_instr C n :=
  apply C with (p := par n);
  [vm_compute; reflexivity|split; [vm_compute; reflexivity|eexists; split; [vm_compute; reflexivity|cbn; tauto]]].

(** Two functions of one name, a type of that name and another module. *)
Definition nav_ex : text :=
  T "(module (type $a (func)) (func $a) (func $a (call $a) (call 1))) (module (func $a))".
Example C13_example :
  let t := cur nav_ex (0, 50) in let n := par t in let m := enc MODULE n in
  CursorOn nav_ex (0, 50) t /\ parent t = Some n /\ Asks n (AModule FuncS) /\ Written n (Named (T "$a"))
  /\ in_module n m /\ InTree (tree_of nav_ex) m
  /\ map ekind (filter (has_name (T "$a")) (definitions_of FuncS m)) = [MODULE_FIELD_FUNC; MODULE_FIELD_FUNC]
  /\ goto_definition nav_ex (0, 50) = Ans (Array [((0, 31), (0, 33)); ((0, 41), (0, 43))]).
Proof.
  assert (C : CursorOn nav_ex (0, 50) (cur nav_ex (0, 50))) by (vm_compute; reflexivity).
  assert (P : parent (cur nav_ex (0, 50)) = Some (par (cur nav_ex (0, 50)))) by (vm_compute; reflexivity).
  assert (E : enclosing [MODULE] (par (cur nav_ex (0, 50))) = Some (enc MODULE (par (cur nav_ex (0, 50)))))
    by (vm_compute; reflexivity).
  intros t n m. split; [exact C|]. split; [exact P|]. split; [by_instr Asks_call n|].
  split; [apply (Written_name n t); vm_compute; reflexivity|].
  destruct (ex_module _ _ _ _ _ C P E) as [M1 M2]. split; [exact M1|]. split; [exact M2|].
  split; vm_compute; reflexivity.
Qed.

Ltac cursor_at src pos C P :=
  assert (C : CursorOn src pos (cur src pos)) by (vm_compute; reflexivity);
  assert (P : parent (cur src pos) = Some (par (cur src pos))) by (vm_compute; reflexivity).
Ltac enclosing_at src pos k E :=
  assert (E : enclosing [k] (par (cur src pos)) = Some (enc k (par (cur src pos)))) by (vm_compute; reflexivity).
Ltac decimal :=
  match goal with |- Decimal _ ?k => idtac end;
  eexists; split; [left; reflexivity|]; split; [discriminate|];
  split; [repeat constructor; vm_compute; try discriminate; auto|]; split; [vm_compute; reflexivity|vm_compute; reflexivity].
Ltac by_number :=
  eapply Written_num; [vm_compute; reflexivity|vm_compute; reflexivity|decimal].

(** The answer of C12 is not always empty. *)
Example C12_example : goto_definition nav_ex (0, 50) = Ans (Array [((0, 31), (0, 33)); ((0, 41), (0, 43))]).
Proof. vm_compute. reflexivity. Qed.

(** With a type before them, the functions of this module are numbered from
    1: [call 1] leads to the first function and not to the second. *)
Definition shared_numbers : text := T "(module (type (func)) (func $a) (func $b (call 1)))".
Example C14_example :
  let pos := (0, 47) in let t := cur shared_numbers pos in let n := par t in let m := enc MODULE n in
  CursorOn shared_numbers pos t /\ parent t = Some n /\ Asks n (AModule FuncS) /\ Written n (Numbered 1)
  /\ in_module n m /\ InTree (tree_of shared_numbers) m
  /\ option_map (fun d => option_map etext (token d IDENT)) (nth_error (definitions m) 1) = Some (Some (T "$a"))
  /\ option_map (fun d => option_map etext (token d IDENT)) (nth_error (definitions_of FuncS m) 1) = Some (Some (T "$b"))
  /\ goto_definition shared_numbers pos = Ans (Array [((0, 28), (0, 30))]).
Proof.
  cursor_at shared_numbers (0, 47) C P. enclosing_at shared_numbers (0, 47) MODULE E.
  intros pos t n m. split; [exact C|]. split; [exact P|]. split; [by_instr Asks_call n|]. split; [by_number|].
  destruct (ex_module _ _ _ _ _ C P E) as [M1 M2]. split; [exact M1|]. split; [exact M2|].
  split; [vm_compute; reflexivity|]. split; vm_compute; reflexivity.
Qed.
Theorem C14_index_space_refuted :
  ~ (forall src pos t n s k m,
       CursorOn src pos t -> parent t = Some n ->
       Asks n (AModule s) -> Written n (Numbered k) -> in_module n m -> InTree (tree_of src) m ->
       exists rs, goto_definition src pos = Ans (Array rs)
         /\ Forall2 (Shows src) rs
              match nth_error (definitions_of s m) (N.to_nat k) with Some d => [d] | None => [] end).
Proof.
  intros H. pose proof C14_example as (C & P & A & W & M & Tm & _ & _ & G).
  destruct (H _ _ _ _ _ _ _ C P A W M Tm) as (rs & G' & F). rewrite G in G'. injection G' as <-.
  match type of F with
  | Forall2 _ _ ?l => let l' := eval vm_compute in l in assert (L : l = l') by (vm_compute; reflexivity); rewrite L in F
  end.
  inversion F as [|r d rs ds S _]; subst. destruct S as [S _]. vm_compute in S. discriminate.
Qed.
(** A module of functions only. *)
Definition one_space : text := T "(module (func $a) (func (call 1) (call 0)))".
Example C14_one_index_space_example :
  let pos := (0, 30) in let t := cur one_space pos in let n := par t in let m := enc MODULE n in
  CursorOn one_space pos t /\ parent t = Some n /\ Asks n (AModule FuncS) /\ Written n (Numbered 1)
  /\ in_module n m /\ InTree (tree_of one_space) m /\ definitions m = definitions_of FuncS m
  /\ goto_definition one_space pos = Ans (Array [((0, 19), (0, 23))]).
Proof.
  cursor_at one_space (0, 30) C P. enclosing_at one_space (0, 30) MODULE E.
  intros pos t n m. split; [exact C|]. split; [exact P|]. split; [by_instr Asks_call n|]. split; [by_number|].
  destruct (ex_module _ _ _ _ _ C P E) as [M1 M2]. split; [exact M1|]. split; [exact M2|].
  split; vm_compute; reflexivity.
Qed.

(** Number 2 is the first local: the group of two types counts twice. *)
Definition locals_ex : text := T "(module (func (param i32 i64) (local $x f32) (local.get 2) (local.set 1)))".
Example C15_example :
  let pos := (0, 56) in let t := cur locals_ex pos in let n := par t in let f := enc MODULE_FIELD_FUNC n in
  CursorOn locals_ex pos t /\ parent t = Some n /\ Asks n ALocal /\ Written n (Numbered 2)
  /\ in_func n f /\ InTree (tree_of locals_ex) f
  /\ map ekind (locals_space f) = [VAL_TYPE; VAL_TYPE; LOCAL]
  /\ goto_definition locals_ex pos = Ans (Scalar ((0, 37), (0, 39)))
  /\ goto_definition locals_ex (0, 70) = Ans (Scalar ((0, 25), (0, 28))).
Proof.
  cursor_at locals_ex (0, 56) C P. enclosing_at locals_ex (0, 56) MODULE_FIELD_FUNC E.
  intros pos t n m. split; [exact C|]. split; [exact P|]. split; [by_instr Asks_local n|]. split; [by_number|].
  destruct (ex_func _ _ _ _ _ C P E) as [M1 M2]. split; [exact M1|]. split; [exact M2|].
  split; [vm_compute; reflexivity|]. split; vm_compute; reflexivity.
Qed.
(** The parameters of a type the function only refers to are not counted:
    by the language's rules [local.get 0] is the parameter of type 0, but go
    to definition leads to the local. *)
Definition typed_params : text := T "(module (type (func (param i32))) (func (type 0) (local $x i64) (local.get 0)))".
(** Parameters and locals of a function by the language's rules: the type use
    may give the parameters through its type. *)
Inductive FullSpace (m f : elem) : list elem -> Prop :=
| Full_own : (forall tu, child f TYPE_USE = Some tu -> child tu INDEX = None \/ childs tu PARAM <> []) ->
    FullSpace m f (locals_space f)
| Full_type tu i k ty ft :
    child f TYPE_USE = Some tu -> childs tu PARAM = [] -> child tu INDEX = Some i ->
    Written i (Numbered k) -> nth_error (definitions_of TypeS m) (N.to_nat k) = Some ty ->
    child ty FUNC_TYPE = Some ft ->
    FullSpace m f (flat_map entries (childs ft PARAM) ++ locals_space f).
Theorem C15_type_parameters_refuted :
  ~ (forall src pos t n k m f l,
       CursorOn src pos t -> parent t = Some n -> Asks n ALocal -> Written n (Numbered k) ->
       in_func n f -> InTree (tree_of src) f -> in_module n m -> InTree (tree_of src) m -> FullSpace m f l ->
       match nth_error l (N.to_nat k) with
       | Some d => exists r, goto_definition src pos = Ans (Scalar r) /\ Shows src r d
       | None => goto_definition src pos = NoAns
       end).
Proof.
  intros H. cursor_at typed_params (0, 75) C P. enclosing_at typed_params (0, 75) MODULE E.
  enclosing_at typed_params (0, 75) MODULE_FIELD_FUNC F.
  destruct (ex_module _ _ _ _ _ C P E) as [M1 M2]. destruct (ex_func _ _ _ _ _ C P F) as [F1 F2].
  assert (A : Asks (par (cur typed_params (0, 75))) ALocal) by by_instr Asks_local (par (cur typed_params (0, 75))).
  assert (W : Written (par (cur typed_params (0, 75))) (Numbered 0)) by by_number.
  assert (L : exists l, FullSpace (enc MODULE (par (cur typed_params (0, 75))))
                                  (enc MODULE_FIELD_FUNC (par (cur typed_params (0, 75)))) l
                        /\ option_map (fun d => (estart d, eend d)) (nth_error l 0) = Some (27, 30)).
  { eexists. split.
    - eapply Full_type with (k := 0%N).
      + vm_compute. reflexivity.
      + vm_compute. reflexivity.
      + vm_compute. reflexivity.
      + by_number.
      + vm_compute. reflexivity.
      + vm_compute. reflexivity.
    - vm_compute. reflexivity. }
  destruct L as (l & Hl & Hd). specialize (H _ _ _ _ _ _ _ _ C P A W F1 F2 M1 M2 Hl).
  change (N.to_nat 0) with 0 in H. destruct (nth_error l 0) as [d|]; [|discriminate].
  destruct H as (r & G & S & _).
  assert (G' : goto_definition typed_params (0, 75) = Ans (Scalar ((0, 56), (0, 58)))) by (vm_compute; reflexivity).
  rewrite G' in G. injection G as <-. cbn [option_map] in Hd. injection Hd as Hd1 Hd2.
  assert (Hs : eend (shown d) <= eend d).
  { unfold shown.
    assert (X : forall k t, token d k = Some t -> eend t <= eend d).
    { intros k t Ht. apply token_some in Ht as (Ht & _). assert (D : Desc d t) by (econstructor; [constructor|exact Ht]).
      apply Desc_range in D. apply D. }
    destruct (token d IDENT) eqn:E1; [eauto|]. destruct (token d KEYWORD) eqn:E2; [eauto|]. lia. }
  assert (Hss : estart (shown d) <= 30).
  { assert (estart (shown d) <= eend (shown d)) by (unfold eend, estart; lia). lia. }
  assert (X : forall x, x <= 30 -> line_col (new_line_index typed_params) x <> Some (0, 56)).
  { intros x Hx. do 31 (destruct x as [|x]; [vm_compute; discriminate|]). lia. }
  apply (X _ Hss). exact S.
Qed.

Definition labels_ex : text := T "(module (func (block $a (loop $b (br 1) (br $b)))))".
Example C16_example :
  let pos := (0, 37) in let t := cur labels_ex pos in let n := par t in
  CursorOn labels_ex pos t /\ parent t = Some n /\ Asks n ALabel /\ Written n (Numbered 1)
  /\ map ekind (direct_blocks n) = [BLOCK_LOOP; BLOCK_BLOCK] /\ direct_blocks n = enclosing_blocks n
  /\ goto_definition labels_ex pos = Ans (Scalar ((0, 21), (0, 23)))
  /\ goto_definition labels_ex (0, 44) = Ans (Scalar ((0, 30), (0, 32))).
Proof.
  cursor_at labels_ex (0, 37) C P.
  intros pos t n. split; [exact C|]. split; [exact P|]. split; [by_instr Asks_label n|]. split; [by_number|].
  split; [vm_compute; reflexivity|]. split; [vm_compute; reflexivity|]. split; vm_compute; reflexivity.
Qed.
(** A folded instruction between two blocks hides the outer one. *)
Definition hidden_label : text := T "(module (func (block $a (i32.eqz (block $b (br $a))))))".
Example C17_example :
  let pos := (0, 48) in let t := cur hidden_label pos in let n := par t in
  CursorOn hidden_label pos t /\ parent t = Some n /\ Asks n ALabel /\ Written n (Named (T "$a"))
  /\ map ekind (enclosing_blocks n) = [BLOCK_BLOCK; BLOCK_BLOCK] /\ length (direct_blocks n) = 1
  /\ goto_definition hidden_label pos = NoAns.
Proof.
  cursor_at hidden_label (0, 48) C P.
  intros pos t n. split; [exact C|]. split; [exact P|]. split; [by_instr Asks_label n|].
  split; [apply (Written_name n t); vm_compute; reflexivity|].
  split; [vm_compute; reflexivity|]. split; vm_compute; reflexivity.
Qed.
Theorem C17_every_label_refuted :
  ~ (forall src pos t n w b,
       CursorOn src pos t -> parent t = Some n -> Asks n ALabel -> Written n w ->
       label_target (enclosing_blocks n) w = Some b ->
       exists r, goto_definition src pos = Ans (Scalar r) /\ Shows src r b).
Proof.
  intros H. pose proof C17_example as (C & P & A & W & _ & _ & G).
  match type of P with _ = Some ?n =>
    destruct (label_target (enclosing_blocks n) (Named (T "$a"))) as [b|] eqn:E; [|vm_compute in E; discriminate] end.
  destruct (H _ _ _ _ _ _ C P A W E) as (r & G' & _). congruence.
Qed.
(** So does the branch of an if. *)
Definition hidden_by_if : text := T "(module (func (block $a (if (then (block $b (br $a)))))))".
Theorem C17_if_refuted :
  goto_definition hidden_by_if (0, 48) = NoAns
  /\ map ekind (enclosing_blocks (cur hidden_by_if (0, 48))) = [BLOCK_BLOCK; BLOCK_IF; BLOCK_BLOCK].
Proof. split; vm_compute; reflexivity. Qed.
