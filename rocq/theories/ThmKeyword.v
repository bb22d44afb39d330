(** Keywords and instructions after an opening parenthesis (C36). *)

From Coq Require Import String List NArith Bool Arith Lia Sorted.
From Verif Require Import Text Kind Green SpecParser Lexer LexerFacts Winnow Grammar Sem Lossless Total
  Bounds Lang TokForm Shape ThmParser Red Unique LineIndex ThmTree Cursor ThmPos Doc Ast Binder Preorder SpecBinder BinderFacts
  BinderDefs Blocks Nav NavSpec NavFacts ThmNav RefFacts ThmRefs SymCases TokKinds InstrMeta Types Check CheckFacts
  CheckMsgs ThmCheck ThmDup SpecTypes SigFacts SpecHeader HeaderFacts Counts SemTok Features ThmStructure Hover SpecHover HoverFacts
  SpecSyntax InstrNames Completion SpecCompletion ThmCompletion SpecKeyword.
Import ListNotations.

(** ** The words of [Inner] *)

Definition opener (r : rx) : list string := match r with Sq (Tk L_PAREN) (Sq (Kw w) _) => [w] | _ => [] end.
Fixpoint openers (r : rx) : list string :=
  opener r
  ++ match r with Sq x y | Or x y => openers x ++ openers y | Star x => openers x | _ => [] end.
Lemma openers_iff r w : In w (openers r) <-> exists x, Mentions (Sq lp (Sq (Kw w) x)) r.
Proof.
  assert (Self : forall r, In w (opener r) <-> exists x, r = Sq lp (Sq (Kw w) x)).
  { intros r0. split.
    - destruct r0 as [| | | |a b| |]; try (intros []; fail). destruct a as [|k| | | | |]; try (intros []; fail).
      destruct k; try (intros []; fail). destruct b as [| | | |c d| |]; try (intros []; fail). destruct c as [s| | | | | |]; try (intros []; fail).
      intros [<-|[]]. eexists. reflexivity.
    - intros (x & ->). now left. }
  induction r; cbn [openers]; rewrite in_app_iff, Self; cbn [Mentions]; try rewrite in_app_iff, IHr1, IHr2; try rewrite IHr; clear;
    (split; [intros [(x & E)|H]; [exists x; now left|]|intros (x & [E|H]); [left; now exists x|]]); try contradiction; try (destruct H; fail).
  all: try (destruct H as [(x & H)|(x & H)]; exists x; auto; fail).
  all: try (destruct H as [H|H]; right; [left|right]; now exists x).
  - destruct H as (x & H). exists x. auto.
  - right. now exists x.
Qed.
Lemma parts_iff r k : In k (parts r) <-> Mentions (Nd k) r.
Proof.
  split; [apply parts_ok|]. induction r; cbn [Mentions parts]; intros [E|H]; try discriminate; try contradiction.
  - injection E as ->. now left.
  - apply in_or_app. destruct H; auto.
  - apply in_or_app. destruct H; auto.
  - auto.
Qed.
Definition forms_of (k : kind) : list string :=
  flat_map (fun k' => if is_instr_kind k' then [] else openers (production k')) (parts (production k)).
Definition inner_words (k : kind) : list string :=
  forms_of k ++ flat_map (fun k' => if kind_eqb k' TYPE_USE || kind_eqb k' ELEM_LIST then forms_of k' else []) (parts (production k)).
Lemma instr_kind_iff k : is_instr_kind k = true <-> an_instr k.
Proof.
  unfold an_instr. split; [destruct k; cbn; intros H; try discriminate; auto|].
  intros [<-|[<-|[<-|[<-|[]]]]]; reflexivity.
Qed.
Lemma forms_of_iff k w : In w (forms_of k) <-> exists k', Mentions (Nd k') (production k) /\ ~ an_instr k' /\ Opens k' w.
Proof.
  unfold forms_of. rewrite in_flat_map. split.
  - intros (k' & Hk & Hw). exists k'. split; [now apply parts_iff|]. destruct (is_instr_kind k') eqn:E; [destruct Hw|].
    split; [intros A; apply instr_kind_iff in A; congruence|]. now apply openers_iff.
  - intros (k' & Hk & A & O). exists k'. split; [now apply parts_iff|]. destruct (is_instr_kind k') eqn:E; [now apply instr_kind_iff in E|].
    now apply openers_iff.
Qed.
Lemma inner_iff k w : In w (inner_words k) <-> Inner k w.
Proof.
  unfold inner_words. rewrite in_app_iff, forms_of_iff, in_flat_map. split.
  - intros [(k' & A & B & C)|(k' & A & B)]; [now apply (Inner_part k w k')|].
    destruct (kind_eqb k' TYPE_USE || kind_eqb k' ELEM_LIST) eqn:E; [|destruct B]. apply forms_of_iff in B as (k'' & B & C & D).
    apply (Inner_list k w k' k''); auto; [|now apply parts_iff]. apply orb_prop in E as [E|E]; apply kind_eqb_eq in E; auto.
  - intros [k1 A B C|k1 k2 Ek A B C D].
    + left. exists k1. auto.
    + right. exists k1. split; [now apply parts_iff|]. replace (kind_eqb k1 TYPE_USE || kind_eqb k1 ELEM_LIST) with true.
      * apply forms_of_iff. exists k2. auto.
      * destruct Ek as [-> | ->]; reflexivity.
Qed.

(** ** Opening parentheses *)

Lemma open_iff t : is_l_paren t = true <-> OpenParen t.
Proof.
  unfold is_l_paren, OpenParen. rewrite orb_true_iff, andb_true_iff, !kind_eqb_eq, text_eqb_eq. reflexivity.
Qed.
Lemma skip_all {A} (f : A -> bool) l q r : Forall (fun e => f e = true) l -> f q = false -> skip_while f (l ++ q :: r) = q :: r.
Proof. induction 1 as [|x l Hx _ IH]; cbn [app skip_while]; intros Hq; [now rewrite Hq|]. rewrite Hx. auto. Qed.
Lemma open_not_trivia t : OpenParen t -> is_trivia t = false.
Proof. unfold is_trivia. intros [E|[E _]]; now rewrite E. Qed.
Lemma after_paren t : AfterParen t -> leading_l_paren t = true.
Proof.
  unfold leading_l_paren. intros [H|(l & q & r & E & F & N & O)]; [now rewrite (proj2 (open_iff t) H)|].
  rewrite E, (skip_all is_trivia l q r F (open_not_trivia q O)). cbn [find]. rewrite N. cbn [negb]. rewrite (proj2 (open_iff q) O). apply orb_true_r.
Qed.
Lemma skip_split {A} (f : A -> bool) l : exists a, l = a ++ skip_while f l /\ Forall (fun e => f e = true) a.
Proof.
  induction l as [|x l (a & E & F)]; [exists []; auto|]. cbn [skip_while]. destruct (f x) eqn:Hx; [|exists []; auto].
  exists (x :: a). split; [cbn; congruence|auto].
Qed.
Lemma find_split {A} (f : A -> bool) l q : find f l = Some q -> exists a b, l = a ++ q :: b /\ f q = true /\ Forall (fun e => f e = false) a.
Proof.
  induction l as [|x l IH]; cbn [find]; intros H; [discriminate|]. destruct (f x) eqn:Hx.
  - injection H as ->. exists [], l. auto.
  - destruct (IH H) as (a & b & -> & Hq & F). exists (x :: a), b. auto.
Qed.
Lemma behind_paren t : leading_l_paren t = true -> BehindParen t.
Proof.
  unfold leading_l_paren. intros H. apply orb_prop in H as [H|H]; [left; now apply open_iff|]. right.
  destruct (find _ _) as [q|] eqn:F; [|discriminate]. apply open_iff in H. apply find_split in F as (a & b & E & Nq & Fa).
  destruct (skip_split is_trivia (prev_siblings t)) as (c & E' & Fc). exists (c ++ a), q, b.
  split; [rewrite E', E; now rewrite app_assoc|]. split; [|split; [now apply negb_true_iff|exact H]].
  apply Forall_app. split; [eapply Forall_impl; [|exact Fc]; auto|]. eapply Forall_impl; [|exact Fa]. intros e He. right. now apply negb_false_iff.
Qed.

(** ** Items that are words *)

Definition words_of (c : cmp_ctx) : option (list item) :=
  match c with
  | CInstr => Some (map operator instr_names)
  | CValType => Some (map type_item ["i32"; "i64"; "f32"; "f64"; "v128"; "funcref"; "externref"]%string)
  | CRefType => Some (map type_item ["funcref"; "externref"]%string)
  | CMemArg => Some (map (plain ISnippet) ["offset="; "align="]%string)
  | CLocal | CFunc | CFuncType | CGlobal | CMemory | CTable | CBlock => None
  | _ => Some (map keyword (kw_of c))
  end.
Definition a_word (it : item) : Prop :=
  c_kind it = IKeyword \/ c_kind it = IOperator \/ c_kind it = IClass \/ c_kind it = ISnippet.

Lemma some_inj {A} (a b : A) : Some a = Some b -> a = b.
Proof. congruence. Qed.

Section Doc.
  Variable src : text.
  Notation tree := (tree_of src).
  Notation tb := (the_table src).

  Lemma words_items t c l : words_of c = Some l -> ctx_items src tb t c = Ans l.
  Proof. destruct c; cbn [words_of]; intros H; try discriminate; apply some_inj in H; rewrite <- H; reflexivity. Qed.
  Lemma scope_no_word t it : InScopeItem src t it -> a_word it -> False.
  Proof.
    intros (a & l & p & _ & _ & _ & O). unfold a_word.
    destruct a as [[]| |]; destruct O as (-> & _); intros [H|[H|[H|H]]]; discriminate.
  Qed.
  Lemma names_no_word t c its it : InTree tree t -> is_node t = false -> estart t < eend t -> words_of c = None ->
    ctx_items src tb t c = Ans its -> In it its -> a_word it -> False.
  Proof.
    intros T N Ne W E Hi K.
    assert (NM : forall s, ctx_items src tb t (ctx_of (AModule s)) = Ans its -> False).
    { intros s Es. destruct (module_names src t s T N Ne) as (its' & E' & F). rewrite Es in E'. injection E' as <-.
      now apply (scope_no_word t it (F it Hi)). }
    destruct c; try (cbn [words_of] in W; discriminate W); try first [now apply (NM FuncS)|now apply (NM TypeS)|now apply (NM GlobalS)|now apply (NM MemS)|now apply (NM TableS)].
    - destruct (ancestor t MODULE_FIELD_FUNC) as [f|] eqn:A.
      + apply (ancestor_some src) in A as (Kf & Nf & D & Tf); auto.
        destruct (ctx_scope src t ALocal (numbered 0 (locals_space f)) T N Ne) as (its' & E' & F); [apply (Scope_func src t f); [repeat split; auto|exact Tf]|].
        cbn [ctx_of] in E'. rewrite E in E'. injection E' as <-. now apply (scope_no_word t it (F it Hi)).
      + cbn [ctx_items] in E. rewrite A in E. injection E as <-. destruct Hi.
    - destruct (ctx_scope src t ALabel _ T N Ne (Scope_label src t)) as (its' & E' & F).
      cbn [ctx_of] in E'. rewrite E in E'. injection E' as <-. now apply (scope_no_word t it (F it Hi)).
  Qed.

  (** What is offered at a token, as far as it is words. *)
  Lemma words_offered pos t p cs : CursorAfter src pos t -> parent t = Some p -> contexts t p = Ans cs -> cs <> [] ->
    exists its, completion src pos = Ans its
      /\ forall it, a_word it -> (In it its <-> exists c l, In c cs /\ words_of c = Some l /\ In it l).
  Proof.
    intros C P E Ne. destruct (cursor_after_tok src pos t C) as (T & N & Nt).
    destruct (items_sound src t cs T N Nt) as (ls & M & F & _). exists (concat ls). split.
    - unfold completion. apply find_token_spec in C. rewrite C. cbn [abind]. rewrite P. cbn [aopt abind]. rewrite E. cbn [abind].
      destruct cs as [|c cs]; [contradiction|]. rewrite symbols_spec. cbn [abind]. now rewrite M.
    - intros it W. rewrite in_concat. split.
      + intros (its & Hl & Hi). destruct (Forall2_pick _ _ _ its F Hl) as (c & Hc & Ec). exists c.
        destruct (words_of c) as [l|] eqn:Wc; [|destruct (names_no_word t c its it T N Nt Wc Ec Hi W)].
        exists l. rewrite (words_items t c l Wc) in Ec. apply ans_inj in Ec. subst l. auto.
      + intros (c & l & Hc & Wc & Hi). revert Hc Wc Hi. clear - F. induction F as [|c' its cs ls Ec F IH]; [intros []|].
        intros [->|Hc] Wc Hi.
        * exists its. split; [now left|]. rewrite (words_items t c l Wc) in Ec. apply ans_inj in Ec. now subst l.
        * destruct (IH Hc Wc Hi) as (x & A & B). exists x. split; [now right|exact B].
  Qed.
End Doc.

Lemma words_kw c l w : words_of c = Some l -> (In (keyword w) l <-> In w (kw_of c)).
Proof.
  assert (K : forall ws, In (keyword w) (map keyword ws) <-> In w ws).
  { intros ws. rewrite in_map_iff. split; [intros (x & E & H)|intros H; now exists w]. injection E as E. apply T_inj in E. now subst x. }
  assert (O : forall (f : string -> item) ws, (forall x, c_kind (f x) <> IKeyword) -> In (keyword w) (map f ws) <-> In w []).
  { intros f ws Hf. rewrite in_map_iff. split; [intros (x & E & H)|intros []]. exfalso. apply (Hf x). now rewrite E. }
  destruct c; cbn [words_of]; intros H; try (discriminate H); apply some_inj in H; rewrite <- H; try (apply K); apply O; intros x; discriminate.
Qed.
Lemma words_op c l w : words_of c = Some l -> (In (operator w) l <-> c = CInstr /\ In w instr_names).
Proof.
  assert (O : forall c (f : string -> item) ws, (forall x, c_kind (f x) <> IOperator) -> c <> CInstr ->
     (In (operator w) (map f ws) <-> c = CInstr /\ In w instr_names)).
  { intros c0 f ws Hf Hc. rewrite in_map_iff. split; [intros (x & E & H)|intros (E & _); contradiction]. exfalso. apply (Hf x). now rewrite E. }
  destruct c; cbn [words_of]; intros H; try (discriminate H); apply some_inj in H; rewrite <- H; try (apply O; [intros x; discriminate|discriminate]).
  rewrite in_map_iff. split; [intros (x & E & Hx)|intros (_ & Hx); now exists w]. injection E as E. apply T_inj in E. now subst x.
Qed.

Definition mem (w : string) (l : list string) : bool := existsb (String.eqb w) l.
Definition same_words (a b : list string) : bool := forallb (fun w => mem w b) a && forallb (fun w => mem w a) b.
Lemma mem_iff w l : mem w l = true <-> In w l.
Proof.
  unfold mem. rewrite existsb_exists. split; [intros (x & H & E); apply String.eqb_eq in E; now subst|intros H; exists w; split; [exact H|apply String.eqb_refl]].
Qed.
Lemma same_words_iff a b : same_words a b = true -> forall w, In w a <-> In w b.
Proof.
  unfold same_words. rewrite andb_true_iff, !forallb_forall. intros [A B] w. split; intros H; [apply mem_iff, A|apply mem_iff, B]; exact H.
Qed.
Lemma kws_iff src pos t p cs : CursorAfter src pos t -> parent t = Some p -> contexts t p = Ans cs -> cs <> [] ->
  exists its, completion src pos = Ans its
    /\ (forall w, In (keyword w) its <-> In w (flat_map kw_of cs))
    /\ (forall w, In (operator w) its <-> In CInstr cs /\ In w instr_names).
Proof.
  intros C P E Ne. destruct (words_offered src pos t p cs C P E Ne) as (its & A & H). exists its. split; [exact A|]. split; intros w.
  - rewrite H by now left. rewrite in_flat_map. split.
    + intros (c & l & Hc & Wc & Hi). exists c. split; [exact Hc|]. now apply (words_kw c l w Wc).
    + intros (c & Hc & Hw). exists c. destruct (words_of c) as [l|] eqn:Wc.
      * exists l. split; [exact Hc|]. split; [reflexivity|]. now apply (words_kw c l w Wc).
      * destruct c; cbn [words_of] in Wc; try (discriminate Wc); destruct Hw.
  - rewrite H by now (right; left). split.
    + intros (c & l & Hc & Wc & Hi). apply (words_op c l w Wc) in Hi as (-> & Hi). auto.
    + intros (Hc & Hi). exists CInstr, (map operator instr_names). split; [exact Hc|]. split; [reflexivity|]. now apply in_map.
Qed.

Lemma no_kind_before t : (forall e, In e (prev_siblings t) -> ~ an_instr (ekind e)) ->
  match node_kind_of (prev_siblings t) with Some k => is_instr_kind k | None => false end = false.
Proof.
  intros H. unfold node_kind_of. destruct (find is_node (prev_siblings t)) as [e|] eqn:F; [|reflexivity]. cbn [option_map].
  apply find_some in F as [F _]. destruct (is_instr_kind (ekind e)) eqn:E; [|reflexivity]. apply instr_kind_iff in E. now apply H in F.
Qed.
Lemma no_child p k : (forall g, In g (children p) -> ekind g <> k) -> has_child p k = false.
Proof.
  intros H. unfold has_child. destruct (existsb _ _) eqn:E; [|reflexivity]. apply existsb_exists in E as (g & Hg & E). apply kind_eqb_eq in E.
  now apply H in Hg.
Qed.
Lemma some_child p k : (exists g, In g (children p) /\ ekind g = k) -> has_child p k = true.
Proof. intros (g & H & E). unfold has_child. apply existsb_exists. exists g. split; [exact H|]. now apply kind_eqb_eq. Qed.

(** ** Theorems *)

(** After an opening parenthesis in a form that completes keywords, the
    keywords offered are exactly those of the forms that may stand directly
    in it. *)
Theorem C36_keywords_exact src pos t p : CursorAfter src pos t -> parent t = Some p -> AfterParen t -> Completes t p ->
  exists its, completion src pos = Ans its /\ forall w, In (keyword w) its <-> Inner (ekind p) w.
Proof.
  intros C P A R. apply after_paren in A.
  assert (Go : forall cs, contexts t p = Ans cs -> cs <> [] -> same_words (flat_map kw_of cs) (inner_words (ekind p)) = true ->
    exists its, completion src pos = Ans its /\ forall w, In (keyword w) its <-> Inner (ekind p) w).
  { intros cs E Ne S. destruct (kws_iff src pos t p cs C P E Ne) as (its & I & H & _). exists its. split; [exact I|].
    intros w. rewrite H, <- inner_iff. now apply same_words_iff. }
  unfold Completes in R. unfold contexts in Go. destruct (ekind p) eqn:K; try contradiction R; rewrite ?A in Go; cbn [when] in Go;
    try (eapply Go; [reflexivity|discriminate|vm_compute; reflexivity]).
  - unfold header_ctx in Go. rewrite (no_kind_before t R), A in Go. cbn [negb andb] in Go. eapply Go; [reflexivity|discriminate|].
    destruct (match node_kind_of _ with Some _ => _ | None => _ end); vm_compute; reflexivity.
  - rewrite (no_child p GLOBAL_TYPE R) in Go. eapply Go; [reflexivity|discriminate|vm_compute; reflexivity].
Qed.

(** In an element segment: the table before its use and the offset, the
    offset until there is one, and items after it. *)
Theorem C36_elem_keywords src pos t p : CursorAfter src pos t -> parent t = Some p -> AfterParen t -> ekind p = MODULE_FIELD_ELEM ->
  let has k := exists g, In g (children p) /\ ekind g = k in
  exists its, completion src pos = Ans its /\ forall w, In (keyword w) its <->
    w = "table"%string /\ ~ has TABLE_USE /\ ~ has OFFSET \/ w = "offset"%string /\ ~ has OFFSET \/ w = "item"%string /\ has OFFSET.
Proof.
  intros C P A K has. apply after_paren in A.
  assert (Hk : forall k, has_child p k = true <-> has k).
  { intros k. split; [|apply some_child]. unfold has_child. intros H. apply existsb_exists in H as (g & Hg & E). apply kind_eqb_eq in E. now exists g. }
  assert (Hn : forall k, has_child p k = false <-> ~ has k).
  { intros k. rewrite <- Hk. destruct (has_child p k); split; congruence. }
  destruct (contexts t p) as [cs| |] eqn:E; unfold contexts in E; rewrite K, A in E; try discriminate E. apply ans_inj in E.
  destruct (kws_iff src pos t p cs C P) as (its & I & H & _); [unfold contexts; now rewrite K, A, E|rewrite <- E; destruct (has_child p OFFSET); [discriminate|]; destruct (negb (has_child p TABLE_USE)); discriminate|].
  exists its. split; [exact I|]. intros w. rewrite H, <- E. clear - Hk Hn. rewrite <- !Hn, <- Hk.
  destruct (has_child p OFFSET), (has_child p TABLE_USE); cbn; intuition (subst; auto; discriminate).
Qed.

(** Where an instruction may stand, every instruction is offered. *)
Theorem C36_instructions src pos t p : CursorAfter src pos t -> parent t = Some p -> AfterParen t -> Instructs t p ->
  exists its, completion src pos = Ans its /\ forall w, In w instr_names -> In (operator w) its.
Proof.
  intros C P A R. apply after_paren in A.
  assert (Go : forall cs, contexts t p = Ans cs -> In CInstr cs ->
    exists its, completion src pos = Ans its /\ forall w, In w instr_names -> In (operator w) its).
  { intros cs E Hi. destruct (kws_iff src pos t p cs C P E) as (its & I & _ & H); [intros ->; destruct Hi|]. exists its. split; [exact I|].
    intros w Hw. apply H. auto. }
  unfold Instructs in R. unfold contexts in Go. destruct (ekind p) eqn:K; try contradiction R; rewrite ?A in Go; cbn [when] in Go;
    try (eapply Go; [reflexivity|cbn; tauto]).
  - eapply Go; [reflexivity|]. apply in_or_app. right. now left.
  - eapply Go; [reflexivity|]. apply in_or_app. right.
    replace (match node_kind_of (next_siblings t) with Some k => is_instr_kind k | None => true end) with true; [now left|].
    unfold node_kind_of. destruct (find is_node (next_siblings t)) as [e|] eqn:F; [|reflexivity]. cbn [option_map].
    apply find_some in F as [F N]. symmetry. apply instr_kind_iff. now apply R.
  - rewrite (some_child p GLOBAL_TYPE R) in Go. eapply Go; [reflexivity|now left].
Qed.

Lemma completion_ctx src pos its it : completion src pos = Ans its -> In it its -> a_word it ->
  exists t p cs c l, CursorAfter src pos t /\ parent t = Some p /\ contexts t p = Ans cs /\ In c cs /\ words_of c = Some l /\ In it l.
Proof.
  intros H Hi W. destruct (completion_parts src pos its H) as (t & p & cs & ls & C & P & E & M & ->).
  destruct cs as [|c cs]; [apply ans_inj in M; rewrite <- M in Hi; destruct Hi|].
  destruct (words_offered src pos t p (c :: cs) C P E) as (its' & I & O); [discriminate|].
  rewrite H in I. apply ans_inj in I. rewrite I in Hi. apply (O it W) in Hi as (c' & l & A & B & D). exists t, p, (c :: cs), c', l. auto 7.
Qed.

(** A keyword is offered only behind an opening parenthesis, except for two
    keywords of element segments and at the name of an instruction that is an
    offset. *)
Theorem C36_keywords_behind_paren src pos its w : completion src pos = Ans its -> In (keyword w) its ->
  exists t p, CursorAfter src pos t /\ parent t = Some p
    /\ (BehindParen t
        \/ ekind p = MODULE_FIELD_ELEM /\ (w = "func" \/ w = "declare")%string
        \/ ekind p = PLAIN_INSTR /\ ekind t = INSTR_NAME /\ exists o, parent p = Some o /\ ekind o = OFFSET).
Proof.
  intros H Hi. destruct (completion_ctx src pos its _ H Hi) as (t & p & cs & c & l & C & P & E & Hc & Wc & Hl); [now left|].
  apply (words_kw c l w Wc) in Hl. clear Wc l. exists t, p. split; [exact C|]. split; [exact P|].
  destruct (leading_l_paren t) eqn:A; [left; now apply behind_paren|]. right.
  unfold contexts in E. destruct (ekind p) eqn:K; rewrite ?A in E; cbn [when] in E;
    try (apply ans_inj in E; rewrite <- E in Hc; cbn in Hc; repeat (destruct Hc as [<-|Hc]; [destruct Hl|]); destruct Hc; fail).
  all: try (apply ans_inj in E; rewrite <- E in Hc; apply when_in in Hc; destruct Hc as [<-|[]]; destruct Hl; fail).
  - (* plain instruction *)
    destruct (kind_eqb (ekind t) INSTR_NAME) eqn:Kt.
    + apply kind_eqb_eq in Kt. right. split; [reflexivity|]. split; [exact Kt|]. apply ans_inj in E. rewrite <- E in Hc.
      destruct Hc as [<-|Hc]; [destruct Hl|]. destruct (parent p) as [o|]; [|destruct Hc]. exists o. split; [reflexivity|].
      destruct (ekind o); try (destruct Hc; fail); [reflexivity|]. unfold header_ctx in Hc. rewrite A, andb_false_r in Hc. destruct Hc.
    + destruct (token p INSTR_NAME) as [nm|]; [|discriminate E]. apply ans_inj in E. rewrite <- E in Hc. apply operand_no_kw in Hc. rewrite Hc in Hl. destruct Hl.
  - destruct (find _ _) as [i|]; [|discriminate E]. cbn [aopt abind] in E. destruct (token i INSTR_NAME) as [nm|]; [|discriminate E].
    apply ans_inj in E. rewrite <- E in Hc. apply operand_no_kw in Hc. rewrite Hc in Hl. destruct Hl.
  - destruct (parent p) as [g|]; [|discriminate E]. apply ans_inj in E. rewrite <- E in Hc.
    assert (Z : kw_of c = []). { destruct (ekind g); cbn in Hc; try (destruct Hc; fail); (destruct Hc as [<-|[]]; reflexivity). }
    rewrite Z in Hl. destruct Hl.
  - left. split; [reflexivity|]. apply ans_inj in E. rewrite <- E in Hc.
    match type of Hc with context[if ?e then [CFunc] else _] => destruct e end; [destruct Hc as [<-|[]]; destruct Hl|].
    destruct Hc as [<-|[<-|Hc]]; [destruct Hl|destruct Hl as [<-|[]]; now left|]. apply when_in in Hc. destruct Hc as [<-|[]]. destruct Hl as [<-|[]]. now right.
  - apply ans_inj in E. rewrite <- E in Hc. unfold header_ctx in Hc. rewrite A, andb_false_r in Hc. apply when_in in Hc. destruct Hc as [<-|[]]. destruct Hl.
  - apply ans_inj in E. rewrite <- E in Hc. destruct (has_child p GLOBAL_TYPE); destruct Hc as [<-|[]]; destruct Hl.
Qed.

(** Instructions are offered only at the name of one, or in a form that has
    instructions. *)
Theorem C36_instructions_only src pos its w : completion src pos = Ans its -> In (operator w) its ->
  exists t p, CursorAfter src pos t /\ parent t = Some p
    /\ (ekind p = PLAIN_INSTR /\ ekind t = INSTR_NAME
        \/ ekind p = MODULE_FIELD_FUNC
        \/ ekind p = MODULE_FIELD_GLOBAL /\ (exists g, In g (children p) /\ ekind g = GLOBAL_TYPE)
        \/ BehindParen t /\ In (ekind p) [MODULE_FIELD_DATA; MODULE_FIELD_ELEM; ELEM; ELEM_LIST]
        \/ In (ekind p) [ELEM_EXPR; OFFSET]).
Proof.
  intros H Hi. destruct (completion_ctx src pos its _ H Hi) as (t & p & cs & c & l & C & P & E & Hc & Wc & Hl); [now (right; left)|].
  apply (words_op c l w Wc) in Hl as [-> _]. clear Wc l. exists t, p. split; [exact C|]. split; [exact P|].
  unfold contexts in E. destruct (ekind p) eqn:K;
    try (apply ans_inj in E; rewrite <- E in Hc; cbn in Hc; repeat (destruct Hc as [Hc|Hc]; [discriminate Hc|]); destruct Hc; fail);
    try (apply ans_inj in E; rewrite <- E in Hc; apply when_in in Hc; cbn in Hc; repeat (destruct Hc as [Hc|Hc]; [discriminate Hc|]); destruct Hc; fail).
  all: try (right; right; right; right; left; reflexivity).
  all: try (right; right; right; right; right; left; reflexivity).
  all: try (right; left; reflexivity).
  all: try (lazymatch type of K with _ = MODULE_FIELD_DATA => idtac | _ = ELEM => idtac | _ = ELEM_LIST => idtac end;
    destruct (leading_l_paren t) eqn:A; [right; right; right; left; split; [now apply behind_paren|cbn; tauto]|];
    apply ans_inj in E; rewrite <- E in Hc; cbn in Hc; repeat (destruct Hc as [Hc|Hc]; [discriminate Hc|]); destruct Hc; fail).
  - destruct (kind_eqb (ekind t) INSTR_NAME) eqn:Kt; [apply kind_eqb_eq in Kt; auto|].
    destruct (token p INSTR_NAME) as [nm|]; [|discriminate E]. apply ans_inj in E. rewrite <- E in Hc. exfalso. revert Hc. clear.
    unfold operand_ctx. destruct (split_dot (etext nm)) as [[a b]|];
      repeat match goal with |- context[if ?e then _ else _] => destruct e end; intros H; cbn in H;
      repeat (destruct H as [H|H]; [discriminate H|]); destruct H.
  - destruct (find _ _) as [i|]; [|discriminate E]. cbn [aopt abind] in E. destruct (token i INSTR_NAME) as [nm|]; [|discriminate E].
    apply ans_inj in E. rewrite <- E in Hc. exfalso. revert Hc. clear.
    unfold operand_ctx. destruct (split_dot (etext nm)) as [[a b]|];
      repeat match goal with |- context[if ?e then _ else _] => destruct e end; intros H; cbn in H;
      repeat (destruct H as [H|H]; [discriminate H|]); destruct H.
  - apply ans_inj in E. rewrite <- E in Hc. destruct (leading_l_paren t); destruct Hc as [Hc|[]]; discriminate Hc.
  - destruct (parent p) as [g|]; [|discriminate E]. apply ans_inj in E. rewrite <- E in Hc. exfalso. revert Hc. clear.
    destruct (ekind g); cbn; intros Hc; repeat (destruct Hc as [Hc|Hc]; [discriminate Hc|]); destruct Hc.
  - destruct (leading_l_paren t) eqn:A; [right; right; right; left; split; [now apply behind_paren|cbn; tauto]|].
    apply ans_inj in E. rewrite <- E in Hc. exfalso. revert Hc. clear.
    match goal with |- context[if ?e then [CFunc] else _] => destruct e end; [intros [H|[]]; discriminate H|].
    intros [H|[H|H]]; try discriminate H. apply when_in in H. destruct H as [H|[]]. discriminate H.
  - destruct (has_child p GLOBAL_TYPE) eqn:G.
    + right. right. left. split; [reflexivity|]. unfold has_child in G. apply existsb_exists in G as (g & Hg & Kg). apply kind_eqb_eq in Kg. now exists g.
    + apply ans_inj in E. rewrite <- E in Hc. destruct (leading_l_paren t); cbn in Hc; repeat (destruct Hc as [Hc|Hc]; [discriminate Hc|]); destruct Hc.
  - apply ans_inj in E. rewrite <- E in Hc. destruct (leading_l_paren t); cbn in Hc; repeat (destruct Hc as [Hc|Hc]; [discriminate Hc|]); destruct Hc.
Qed.

(** In a parameter, a result, a local or the type of a global the value types
    are offered, and nothing after a dollar sign. *)
Theorem C36_value_types src pos t p : CursorAfter src pos t -> parent t = Some p -> In (ekind p) [PARAM; RESULT; LOCAL; GLOBAL_TYPE] ->
  if at_dollar t then completion src pos = NoAns
  else exists its, completion src pos = Ans its
    /\ map c_label its = map Text.T ["i32"; "i64"; "f32"; "f64"; "v128"; "funcref"; "externref"]%string.
Proof.
  intros C P K. assert (E : contexts t p = Ans (when (negb (starts_with (Text.T "$") (etext t))) [CValType])).
  { unfold contexts. destruct K as [K|[K|[K|[K|[]]]]]; rewrite <- K; reflexivity. }
  pose proof (has_dollar_at t) as D. unfold has_dollar in D. rewrite D in E. apply find_token_spec in C.
  unfold completion. rewrite C. cbn [abind]. rewrite P. cbn [aopt abind]. rewrite E. cbn [abind].
  destruct (at_dollar t); cbn [negb when]; [reflexivity|]. rewrite symbols_spec. cbn [abind map_ans ctx_items]. eexists. split; reflexivity.
Qed.

(** ** Examples *)

(** In the header of a function after [(]. *)
Example C36_keywords_example : let src := Text.T "(module (func $f (param i32) (" in let pos := (0, 30) in let t := left_of src pos in
  CursorAfter src pos t /\ option_map ekind (parent t) = Some MODULE_FIELD_FUNC /\ AfterParen t /\ Completes t (par t) /\ Instructs t (par t)
  /\ Inner MODULE_FIELD_FUNC "result" /\ ~ Inner MODULE_FIELD_FUNC "item".
Proof.
  intros src pos t. split; [apply left_cursor; vm_compute; reflexivity|]. split; [vm_compute; reflexivity|].
  split; [left; right; split; vm_compute; reflexivity|]. split.
  - assert (K : ekind (par t) = MODULE_FIELD_FUNC) by (vm_compute; reflexivity). unfold Completes. rewrite K. intros e He A.
    assert (F : forallb (fun e => negb (is_instr_kind (ekind e))) (prev_siblings t) = true) by (vm_compute; reflexivity).
    rewrite forallb_forall in F. apply F in He. apply instr_kind_iff in A. rewrite A in He. discriminate He.
  - split; [|split; [apply inner_iff, mem_iff; vm_compute; reflexivity|intros H; apply inner_iff, mem_iff in H; vm_compute in H; discriminate H]].
    assert (K : ekind (par t) = MODULE_FIELD_FUNC) by (vm_compute; reflexivity). unfold Instructs. rewrite K. intros e He N.
    assert (F : forallb (fun e => negb (is_node e)) (next_siblings t) = true) by (vm_compute; reflexivity).
    rewrite forallb_forall in F. apply F in He. rewrite N in He. discriminate He.
Qed.
(** In an element segment with an offset. *)
Example C36_elem_example : let src := Text.T "(module (elem (offset (i32.const 0)) (" in let pos := (0, 38) in let t := left_of src pos in
  CursorAfter src pos t /\ option_map ekind (parent t) = Some MODULE_FIELD_ELEM /\ AfterParen t
  /\ exists g, In g (children (par t)) /\ ekind g = OFFSET.
Proof.
  intros src pos t. split; [apply left_cursor; vm_compute; reflexivity|]. split; [vm_compute; reflexivity|].
  split; [left; right; split; vm_compute; reflexivity|].
  assert (H : has_child (par t) OFFSET = true) by (vm_compute; reflexivity). unfold has_child in H.
  apply existsb_exists in H as (g & Hg & K). apply kind_eqb_eq in K. exists g. split; [exact Hg|exact K].
Qed.
(** In a parameter. *)
Example C36_types_example : let src := Text.T "(module (func (param i" in let pos := (0, 22) in let t := left_of src pos in
  CursorAfter src pos t /\ option_map ekind (parent t) = Some PARAM /\ at_dollar t = false.
Proof. intros src pos t. split; [apply left_cursor; vm_compute; reflexivity|]. split; vm_compute; reflexivity. Qed.

(** ** What does not hold *)

(** In a block nothing is offered after [(]: neither the forms of its type nor
    instructions. *)
Theorem C36_every_form_refuted :
  ~ (forall src pos t p w, CursorAfter src pos t -> parent t = Some p -> AfterParen t -> Mentions (Nd PLAIN_INSTR) (production (ekind p)) ->
       In w instr_names -> exists its, completion src pos = Ans its /\ In (operator w) its).
Proof.
  intros H. set (src := Text.T "(module (func (block ("). set (pos := (0, 22)).
  assert (C : CursorAfter src pos (left_of src pos)) by (apply left_cursor; vm_compute; reflexivity).
  destruct (H src pos (left_of src pos) (par (left_of src pos)) "nop"%string C) as (its & E & _).
  - vm_compute. reflexivity.
  - left. right. split; vm_compute; reflexivity.
  - replace (ekind (par (left_of src pos))) with BLOCK_BLOCK by (vm_compute; reflexivity). apply parts_iff. cbn. auto 12.
  - apply mem_iff. vm_compute. reflexivity.
  - assert (Z : match completion src pos with NoAns => true | _ => false end = true) by (vm_compute; reflexivity).
    rewrite E in Z. discriminate Z.
Qed.
