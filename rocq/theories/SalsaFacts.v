(** Equality tests of the query engine; the code of the queries agrees with
    the from-scratch values. *)

From Coq Require Import String List NArith Bool Arith Lia.
From Verif Require Import Text Kind Green SpecParser Lexer LexerFacts Winnow Grammar Sem Lossless Total
  Bounds Lang TokForm Shape Red Unique LineIndex Cursor Doc Ast Binder Preorder SpecBinder BinderFacts BinderDefs Blocks
  Nav NavSpec NavFacts ThmNav RefFacts ThmRefs SymCases InstrMeta Types Check CheckFacts Salsa SpecSalsa.
Import ListNotations.

(** ** Equality tests *)

Lemma list_eqb_eq {A} (e : A -> A -> bool) : (forall a b, e a b = true <-> a = b) ->
  forall l l', list_eqb e l l' = true <-> l = l'.
Proof.
  intros H. induction l as [|x r IH]; intros [|y r']; cbn [list_eqb]; try (split; [discriminate|discriminate]); [tauto|].
  rewrite andb_true_iff, H, IH. split; [intros [-> ->]; reflexivity|intros E; injection E; auto].
Qed.
Lemma pair_eqb_eq {A B} (e : A -> A -> bool) (f : B -> B -> bool) :
  (forall a b, e a b = true <-> a = b) -> (forall a b, f a b = true <-> a = b) ->
  forall p q, pair_eqb e f p q = true <-> p = q.
Proof.
  intros H1 H2 [a b] [a' b']. unfold pair_eqb. cbn [fst snd]. rewrite andb_true_iff, H1, H2.
  split; [intros [-> ->]; reflexivity|intros E; injection E; auto].
Qed.
Lemma opt_eqb_eq {A} (e : A -> A -> bool) : (forall a b, e a b = true <-> a = b) ->
  forall p q, opt_eqb e p q = true <-> p = q.
Proof.
  intros H [a|] [b|]; cbn [opt_eqb]; try (split; [discriminate|discriminate]); [|tauto].
  rewrite H. split; [congruence|intros E; injection E; auto].
Qed.
Lemma range_eqb_eq a b : range_eqb a b = true <-> a = b.
Proof. apply pair_eqb_eq; apply pair_eqb_eq; apply Nat.eqb_eq. Qed.
Lemma diag_eqb_eq a b : diag_eqb a b = true <-> a = b.
Proof.
  destruct a as [r m l], b as [r' m' l']. unfold diag_eqb. cbn [d_range d_message d_related].
  rewrite !andb_true_iff, range_eqb_eq, text_eqb_eq, (opt_eqb_eq _ (list_eqb_eq _ (pair_eqb_eq _ _ range_eqb_eq text_eqb_eq))).
  split; [intros [[-> ->] ->]; reflexivity|intros E; injection E; auto].
Qed.
Lemma valtype_eqb_eq a b : valtype_eqb a b = true <-> a = b.
Proof. destruct a, b; cbn; split; congruence. Qed.
Lemma funcsig_eqb_eq a b : funcsig_eqb a b = true <-> a = b.
Proof.
  destruct a as [p1 p2], b as [p3 p4]. unfold funcsig_eqb. cbn [Types.sig_params Types.sig_results].
  rewrite andb_true_iff, (list_eqb_eq _ (pair_eqb_eq _ _ valtype_eqb_eq (opt_eqb_eq _ text_eqb_eq))), (list_eqb_eq _ valtype_eqb_eq).
  split; [intros [-> ->]; reflexivity|intros E; injection E; auto].
Qed.
Lemma green_eqb_eq a : forall b, green_eqb a b = true <-> a = b.
Proof.
  induction a as [k t|k cs IH] using green_ind'; intros [k' t'|k' cs']; cbn [green_eqb]; try (split; discriminate).
  - rewrite andb_true_iff, kind_eqb_eq, text_eqb_eq. split; [intros [-> ->]; reflexivity|intros E; injection E; auto].
  - rewrite andb_true_iff, kind_eqb_eq.
    assert (L : forall l', (fix go (l l' : list green) {struct l} : bool :=
            match l, l' with
            | [], [] => true
            | x :: r, x' :: r' => green_eqb x x' && go r r'
            | _, _ => false
            end) cs l' = true <-> cs = l').
    { clear k k' cs'. induction IH as [|x l Hx _ IHl]; intros [|y l']; try (split; discriminate); [tauto|].
      rewrite andb_true_iff, Hx, IHl. split; [intros [-> ->]; reflexivity|intros E; injection E; auto]. }
    rewrite L. split; [intros [-> ->]; reflexivity|intros E; injection E; auto].
Qed.
Lemma idx_eqb_eq a b : idx_eqb a b = true <-> a = b.
Proof.
  destruct a as [p1 p2], b as [p3 p4]. unfold idx_eqb. cbn [i_num i_name]. rewrite andb_true_iff, (opt_eqb_eq _ N.eqb_eq), (opt_eqb_eq _ text_eqb_eq).
  split; [intros [-> ->]; reflexivity|intros E; injection E; auto].
Qed.

(** Coarse equality of tables is an equivalence. *)
Lemma list_eqb_refl {A} (e : A -> A -> bool) l : (forall a, e a a = true) -> list_eqb e l l = true.
Proof. intros H. induction l; cbn [list_eqb]; [reflexivity|]. now rewrite H. Qed.
Lemma list_eqb_sym {A} (e : A -> A -> bool) : (forall a b, e a b = true -> e b a = true) ->
  forall l l', list_eqb e l l' = true -> list_eqb e l' l = true.
Proof.
  intros H. induction l as [|x r IH]; intros [|y r']; cbn [list_eqb]; try discriminate; auto.
  rewrite !andb_true_iff. intros [A1 B]. auto.
Qed.
Lemma list_eqb_trans {A} (e : A -> A -> bool) : (forall a b c, e a b = true -> e b c = true -> e a c = true) ->
  forall l l' l'', list_eqb e l l' = true -> list_eqb e l' l'' = true -> list_eqb e l l'' = true.
Proof.
  intros H. induction l as [|x r IH]; intros [|y r'] [|z r'']; cbn [list_eqb]; try discriminate; auto.
  rewrite !andb_true_iff. intros [A1 B1] [A2 B2]. eauto.
Qed.
Lemma symbol_eqb_iff a b : symbol_eqb a b = true <-> s_key a = s_key b /\ s_kind a = s_kind b.
Proof. unfold symbol_eqb. now rewrite andb_true_iff, key_eqb_eq, skind_eqb_eq. Qed.
Lemma blocks_eqb_eq a b : list_eqb (pair_eqb (pair_eqb key_eqb key_eqb) idx_eqb) a b = true <-> a = b.
Proof. apply list_eqb_eq. apply pair_eqb_eq; [apply pair_eqb_eq; apply key_eqb_eq|apply idx_eqb_eq]. Qed.
Lemma table_eqb_refl a : table_eqb a a = true.
Proof.
  unfold table_eqb. apply andb_true_iff. split; [|now apply blocks_eqb_eq].
  apply list_eqb_refl. intros x. now apply symbol_eqb_iff.
Qed.
Lemma table_eqb_sym a b : table_eqb a b = true -> table_eqb b a = true.
Proof.
  unfold table_eqb. rewrite !andb_true_iff. intros [H1 H2]. split.
  - revert H1. apply list_eqb_sym. intros x y. rewrite !symbol_eqb_iff. intuition.
  - apply blocks_eqb_eq in H2. now apply blocks_eqb_eq.
Qed.
Lemma table_eqb_trans a b c : table_eqb a b = true -> table_eqb b c = true -> table_eqb a c = true.
Proof.
  unfold table_eqb. rewrite !andb_true_iff. intros [H1 H2] [H3 H4]. split.
  - revert H1 H3. apply list_eqb_trans. intros x y z. rewrite !symbol_eqb_iff. intuition congruence.
  - apply blocks_eqb_eq in H2, H4. apply blocks_eqb_eq. congruence.
Qed.

Definition is_table (v : value) : bool := match v with VTable _ => true | _ => false end.
Lemma value_eqb_exact a b : is_table a = false -> value_eqb a b = true -> a = b.
Proof.
  destruct a, b; cbn [is_table value_eqb]; try discriminate; intros _ H; f_equal.
  - now apply text_eqb_eq.
  - unfold li_eqb in H. apply andb_true_iff in H as [H1 H2]. apply (list_eqb_eq _ Nat.eqb_eq) in H1. apply Nat.eqb_eq in H2.
    destruct li as [p1 p2], li0 as [p3 p4]; cbn [newlines li_len] in *. congruence.
  - apply andb_true_iff in H as [H1 H2]. now apply green_eqb_eq.
  - apply andb_true_iff in H as [H1 H2]. now apply (list_eqb_eq _ diag_eqb_eq).
  - now apply green_eqb_eq.
  - now apply (opt_eqb_eq _ valtype_eqb_eq).
  - now apply funcsig_eqb_eq.
  - now apply (opt_eqb_eq _ funcsig_eqb_eq).
  - now apply text_eqb_eq.
Qed.
Lemma value_eqb_refl a : value_eqb a a = true.
Proof.
  destruct a; cbn [value_eqb].
  - now apply text_eqb_eq.
  - unfold li_eqb. apply andb_true_iff. split; [now apply (list_eqb_eq _ Nat.eqb_eq)|apply Nat.eqb_refl].
  - apply andb_true_iff. split; [now apply green_eqb_eq|now apply (list_eqb_eq _ diag_eqb_eq)].
  - now apply green_eqb_eq.
  - apply table_eqb_refl.
  - now apply (opt_eqb_eq _ valtype_eqb_eq).
  - now apply funcsig_eqb_eq.
  - now apply (opt_eqb_eq _ funcsig_eqb_eq).
  - now apply text_eqb_eq.
Qed.
Lemma value_eqb_sym a b : value_eqb a b = true -> value_eqb b a = true.
Proof.
  intros H. destruct (is_table a) eqn:Ia.
  - destruct a; try discriminate. destruct b; try discriminate. cbn [value_eqb] in *. now apply table_eqb_sym.
  - apply value_eqb_exact in H as ->; [|exact Ia]. apply value_eqb_refl.
Qed.
Lemma value_eqb_trans a b c : value_eqb a b = true -> value_eqb b c = true -> value_eqb a c = true.
Proof.
  intros H H2. destruct (is_table a) eqn:Ia.
  - destruct a; try discriminate. destruct b; try discriminate. destruct c; try discriminate. cbn [value_eqb] in *.
    eapply table_eqb_trans; eauto.
  - apply value_eqb_exact in H as ->; [|exact Ia]. exact H2.
Qed.

Lemma symbol_key_eqb_iff a b : symbol_key_eqb a b = true <-> s_key a = s_key b /\ s_kind a = s_kind b /\ s_green a = s_green b.
Proof. unfold symbol_key_eqb. rewrite andb_true_iff, symbol_eqb_iff, green_eqb_eq. tauto. Qed.

(** Two queries share a slot iff they are equal up to what the key of a
    symbol leaves out. *)
Definition SameSymbol (a b : symbol) : Prop := s_key a = s_key b /\ s_kind a = s_kind b /\ s_green a = s_green b.
Lemma query_eqb_cases a b : query_eqb a b = true ->
  a = b \/ (exists u s s', SameSymbol s s' /\ ((a = QFuncSig u s /\ b = QFuncSig u s') \/ (a = QHeader u s /\ b = QHeader u s'))).
Proof.
  destruct a, b; cbn [query_eqb]; try discriminate; intros H;
    try (apply text_eqb_eq in H as ->; now left);
    try (apply green_eqb_eq in H as ->; now left);
    apply andb_true_iff in H as [H1 H2]; apply text_eqb_eq in H1 as ->; apply symbol_key_eqb_iff in H2; right;
    do 3 eexists; (split; [exact H2|]); auto.
Qed.
Lemma query_eqb_refl a : query_eqb a a = true.
Proof.
  destruct a; cbn [query_eqb]; try (now apply text_eqb_eq); try (now apply green_eqb_eq);
    (apply andb_true_iff; split; [now apply text_eqb_eq|now apply symbol_key_eqb_iff]).
Qed.
Lemma query_eqb_sym a b : query_eqb a b = true -> query_eqb b a = true.
Proof.
  intros H. destruct (query_eqb_cases a b H) as [->|(u & s & s' & S & [[-> ->]|[-> ->]])]; [exact H|..];
    cbn [query_eqb]; apply andb_true_iff; (split; [now apply text_eqb_eq|apply symbol_key_eqb_iff; destruct S as (?&?&?); auto]).
Qed.
Lemma query_eqb_trans a b c : query_eqb a b = true -> query_eqb b c = true -> query_eqb a c = true.
Proof.
  intros H H2. destruct (query_eqb_cases a b H) as [->|(u & s & s' & S & [[-> ->]|[-> ->]])]; [exact H2|..];
    destruct c; cbn [query_eqb] in *; try discriminate; apply andb_true_iff in H2 as [X Y]; rewrite X; cbn [andb];
    apply symbol_key_eqb_iff in Y; apply symbol_key_eqb_iff; unfold SameSymbol in S; intuition congruence.
Qed.
Lemma query_eqb_comm a b c : query_eqb a b = true -> query_eqb a c = query_eqb b c.
Proof.
  intros H. destruct (query_eqb a c) eqn:E1, (query_eqb b c) eqn:E2; try reflexivity.
  - apply query_eqb_sym in H. rewrite (query_eqb_trans _ _ _ H E1) in E2. discriminate.
  - rewrite (query_eqb_trans _ _ _ H E2) in E1. discriminate.
Qed.

(** ** The name of a function symbol is in its green node *)

Definition green_ident (g : green) : option text :=
  find_map (fun c => match c with Tok IDENT t => Some t | _ => None end) (gchildren g).
Definition Named (s : symbol) : Prop := s_kind s = SFunc -> i_name (s_idx s) = green_ident (s_green s).

Lemma ident_of_green e : ident_of e = green_ident (el e).
Proof.
  unfold ident_of, green_ident, token, children_with_tokens.
  generalize (el e) at 1. generalize (off e) at 1. generalize (ups e). generalize 0. generalize (off e).
  induction (gchildren (el e)) as [|c l IH]; intros o i us n g; [reflexivity|].
  cbn [kids find find_map]. destruct c as [k t|k cs].
  - cbn [is_node el negb andb]. unfold ekind. cbn [el gkind].
    destruct (kind_eqb_spec k IDENT) as [->|K].
    + reflexivity.
    + rewrite IH. destruct k; try reflexivity. now destruct K.
  - cbn [is_node el negb andb]. apply IH.
Qed.

Lemma named_symbol t s tb : create_symbol_table (tree_of t) = Some tb -> In s (symbols tb) -> Named s.
Proof.
  rewrite table_spec. intros E Hs K. injection E as <-. cbn [the_table symbols] in Hs.
  apply raw_in in Hs as (id & e & _ & Hx). unfold node_symbols in Hx.
  assert (PB : forall k, In s (parent_based e id k) -> i_name (s_idx s) = green_ident (s_green s)).
  { intros k H. unfold parent_based in H. destruct (parent e); [|destruct H]. destruct H as [<-|[]].
    cbn [s_idx i_name s_green]. apply ident_of_green. }
  assert (IB : forall k, In s (import_desc_based e id k) -> i_name (s_idx s) = green_ident (s_green s)).
  { intros k H. unfold import_desc_based in H. destruct (parent e) as [p|]; [|destruct H]. destruct (parent p); [|destruct H].
    destruct H as [<-|[]]. cbn [s_idx i_name s_green]. apply ident_of_green. }
  destruct (ekind e) eqn:Ke; try (now destruct Hx); try (now eapply PB, Hx); try (now eapply IB, Hx);
    try (exfalso; apply index_ref_kind in Hx; congruence).
  all: first
    [ solve [exfalso; apply instr_symbols_kind in Hx; rewrite K in Hx; cbn in Hx; intuition discriminate]
    | solve [exfalso; destruct (parent e); [|destruct Hx]; destruct Hx as [<-|[]]; discriminate]
    | solve [apply in_app_or in Hx as [Hx|Hx]; [eapply PB, Hx|];
             exfalso; apply in_app_or in Hx as [Hx|Hx]; apply number_slots_kind in Hx; congruence]
    | solve [exfalso; apply parent_based_kind in Hx; congruence] ].
Qed.

(** ** The queries *)

(** What the engine needs of a query: the document of a symbol has been set,
    and the name of the symbol is that of its node. *)
Definition Fit (D : docs) (q : query) : Prop :=
  match q with
  | QFuncSig u s | QHeader u s => Named s /\ D u <> None
  | _ => True
  end.
Lemma proper_fit D q : Proper D q -> Fit D q.
Proof.
  destruct q; cbn [Proper Fit]; auto; intros (t & tb & H1 & H2 & H3); (split; [eapply named_symbol; eauto|congruence]).
Qed.

Lemma fresh_slot D a b : query_eqb a b = true -> Fit D a -> Fit D b -> fresh D a = fresh D b.
Proof.
  intros H Fa Fb. destruct (query_eqb_cases a b H) as [->|(u & s & s' & (S1 & S2 & S3) & [[-> ->]|[-> ->]])]; [reflexivity|..];
    cbn [fresh Fit] in *; destruct (D u) as [t|]; try reflexivity; destruct create_symbol_table as [tb|]; try reflexivity.
  - unfold get_func_sig. now rewrite S1, S3.
  - assert (G : get_func_sig t tb s = get_func_sig t tb s') by (unfold get_func_sig; now rewrite S1, S3).
    unfold render_func_header. rewrite G, S2. destruct Fa as [Na _], Fb as [Nb _]. unfold Named in *.
    destruct (s_kind s') eqn:K; try reflexivity. rewrite Na, Nb, S3 by congruence. reflexivity.
Qed.

Lemma map_ans_yes {A B} (f : A -> ans B) l : (forall x, In x l -> f x <> NoAns) -> map_ans f l <> NoAns.
Proof.
  induction l as [|x r IH]; intros H; cbn [map_ans]; [discriminate|].
  specialize (H x (or_introl eq_refl)) as Hx. destruct (f x); cbn [abind]; try discriminate; [|now destruct Hx].
  specialize (IH (fun y Hy => H y (or_intror Hy))). destruct (map_ans f r); cbn [abind]; try discriminate. now destruct IH.
Qed.
Lemma valtype_from_yes e : valtype_from e <> NoAns.
Proof.
  unfold valtype_from. destruct (token e NUM_TYPE) as [t|]; [destruct (num_type (etext t)); discriminate|].
  destruct (token e VEC_TYPE); [discriminate|]. destruct (token e REF_TYPE) as [t|]; [|discriminate].
  destruct (Types.ref_type (etext t)); discriminate.
Qed.
Lemma extract_sig_yes g : extract_sig g <> NoAns.
Proof.
  unfold extract_sig. assert (H1 : map_ans sig_param (childs (root_of g) PARAM) <> NoAns).
  { apply map_ans_yes. intros p _. unfold sig_param.
    assert (V : abind (map_ans valtype_from (childs p VAL_TYPE)) (fun ts => Ans (map (fun t => (t, @None text)) ts)) <> NoAns).
    { pose proof (map_ans_yes valtype_from (childs p VAL_TYPE) (fun x _ => valtype_from_yes x)) as V.
      destruct (map_ans valtype_from (childs p VAL_TYPE)); cbn [abind]; try discriminate. now destruct V. }
    destruct (token p IDENT); [|exact V]. destruct (childs p VAL_TYPE) as [|v r]; [exact V|].
    pose proof (valtype_from_yes v) as W. destruct (valtype_from v); cbn [abind]; try discriminate. now destruct W. }
  destruct (map_ans sig_param _); cbn [abind]; try discriminate; [|now destruct H1].
  match goal with |- abind (map_ans valtype_from ?l) _ <> _ =>
    pose proof (map_ans_yes valtype_from l (fun x _ => valtype_from_yes x)) as V; destruct (map_ans valtype_from l) end;
    cbn [abind]; try discriminate. now destruct V.
Qed.

Definition is_source (q : query) : bool := match q with QSource _ => true | _ => false end.

Lemma code_pure D q : is_source q = false -> Fit D q -> pure D (code q) = fresh D q.
Proof.
  destruct q; intros H F; try discriminate; cbn [code fresh pure ask_source ask_line ask_parse ask_root ask_table ask_type ask_sig ask_func_sig].
  - destruct (D u); reflexivity.
  - destruct (D u) as [t|] eqn:Du; [|reflexivity]. cbn [option_map pure ask_line fresh]. rewrite Du. cbn [option_map].
    change (map_ans (diag_with (new_line_index t)) (errs_of t)) with (syntax_diags t).
    destruct (syntax_diags t); reflexivity.
  - destruct (D u) as [t|]; [|reflexivity]. cbn [option_map pure].
    destruct (syntax_fine t) as (ds & -> & _). reflexivity.
  - destruct (D u) as [t|]; [|reflexivity]. cbn [option_map pure]. destruct create_symbol_table; reflexivity.
  - reflexivity.
  - unfold extract_global_type. destruct green_child; reflexivity.
  - destruct (extract_sig g); reflexivity.
  - destruct F as [_ F]. destruct (D u) as [t|] eqn:Du; [|now destruct F]. destruct (create_symbol_table (tree_of t)) as [tb|] eqn:Tb.
    2:{ rewrite table_spec in Tb. discriminate. }
    unfold get_func_sig. destruct (green_child TYPE_USE (s_green s)) as [tu|]; cbn [aopt abind catch some_or_panic option_map pure]; [|reflexivity].
    destruct existsb.
    { cbn [pure fresh ask_sig]. pose proof (extract_sig_yes tu). destruct (extract_sig tu); [reflexivity|congruence|reflexivity]. }
    cbn [pure fresh ask_root]. rewrite Du. cbn [option_map]. unfold type_of_use.
    destruct (to_node (tree_of t) (s_key s)) as [n|]; cbn [amust abind pure catch some_or_panic option_map]; [|reflexivity].
    cbn [fresh ask_table pure]. rewrite Du, Tb. cbn [option_map].
    destruct (child n TYPE_USE) as [tu'|]; cbn [aopt abind pure catch some_or_panic option_map]; [|reflexivity].
    destruct (child tu' INDEX) as [i|]; cbn [aopt abind pure catch some_or_panic option_map]; [|reflexivity].
    destruct (find_defs tb (key_of i)) as [[|d ds]|]; cbn [aopt abind hd_error pure catch some_or_panic option_map]; try reflexivity.
    destruct (find_func_type_of_type_def (s_green d)) as [ft|]; cbn [aopt abind pure catch some_or_panic option_map]; [|reflexivity].
    cbn [fresh ask_sig pure]. pose proof (extract_sig_yes ft). destruct (extract_sig ft); [reflexivity|congruence|reflexivity].
  - destruct F as [_ F]. cbn [fresh]. destruct (D u) as [t|] eqn:Du; [|now destruct F].
    destruct (create_symbol_table (tree_of t)) as [tb|] eqn:Tb.
    2:{ rewrite table_spec in Tb. discriminate. }
    unfold render_func_header. cbn [pure ask_func_sig fresh]. rewrite ?Du, ?Tb. destruct (get_func_sig t tb s) as [sg| |]; reflexivity.
Qed.
