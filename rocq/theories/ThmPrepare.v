(** The requests that start a call hierarchy (C46) and a renaming (C47). *)

From Coq Require Import String List NArith Bool Arith Lia Sorted.
From Verif Require Import Text Kind Green SpecParser Lexer LexerFacts Winnow Grammar Sem Lossless Total
  Bounds Lang TokForm Shape ThmParser Red Unique LineIndex ThmTree Cursor ThmPos Doc Ast Binder Preorder SpecBinder BinderFacts
  BinderDefs Blocks Nav NavSpec NavFacts ThmNav ThmGoto RefFacts ThmRefs SymCases TokKinds ThmRename InstrMeta Types Check
  CheckFacts CheckMsgs ThmCheck ThmDup SpecTypes SigFacts SpecHeader HeaderFacts Counts Features ThmStructure ThmCalls.
Import ListNotations.

(** ** Nodes are told apart by their ranges *)

Lemma find_map_one {A B} (f : A -> option B) l x y : In x l -> f x = Some y ->
  (forall z, In z l -> f z <> None -> z = x) -> find_map f l = Some y.
Proof.
  induction l as [|a l IH]; intros Hx Hy Hu; [destruct Hx|]. cbn [find_map].
  destruct (f a) as [b|] eqn:E.
  - rewrite (Hu a) in E; [congruence|now left|congruence].
  - destruct Hx as [->|Hx]; [congruence|]. apply IH; auto. intros z Hz. apply Hu. now right.
Qed.
Lemma find_map_some {A B} (f : A -> option B) l y : find_map f l = Some y -> exists x, In x l /\ f x = Some y.
Proof.
  induction l as [|a l IH]; [discriminate|]. cbn [find_map]. destruct (f a) as [b|] eqn:E.
  - intros [= <-]. exists a. cbn. auto.
  - intros H. destruct (IH H) as (x & Hx & Ex). exists x. cbn. auto.
Qed.

Section Doc.
  Variable src : text.
  Notation tree := (tree_of src).
  Notation tb := (the_table src).

  (** A node with a token among its children is longer than any node below. *)
  Lemma token_longer p t d : InTree tree p -> In t (children_with_tokens p) -> is_node t = false ->
    Desc p d -> is_node d = true -> d <> p -> glen (el d) < glen (el p).
  Proof.
    intros Tp Ht Nt D N Hd.
    assert (X : forall e, Desc p e -> e = p \/ exists c, In c (children_with_tokens p) /\ Desc c e).
    { induction 1 as [|q e Dq IH He]; [now left|]. right. destruct IH as [->|(c & Hc & Dc)].
      - exists e. split; [exact He|constructor].
      - exists c. split; [exact Hc|]. econstructor; eauto. }
    destruct (X d D) as [->|(c & Hc & Dc)]; [congruence|].
    assert (Tt : InTree tree t) by exact (Desc_step _ _ _ Tp Ht).
    assert (Tc : InTree tree c) by exact (Desc_step _ _ _ Tp Hc).
    assert (Ec : c <> t).
    { intros E. subst c. assert (Z : forall e, Desc t e -> e = t).
      { induction 1 as [|q0 e0 Dq0 IH0 He0]; [reflexivity|]. subst q0. unfold children_with_tokens in He0.
        unfold is_node in Nt. destruct (el t); [destruct He0|discriminate]. }
      apply Z in Dc. congruence. }
    pose proof (token_nonempty src t Tt Nt) as L.
    pose proof (child_range _ _ Ht) as R1. pose proof (child_range _ _ Hc) as R2. pose proof (Desc_range _ _ Dc) as R3.
    pose proof (child_depth _ _ Ht) as D1. pose proof (child_depth _ _ Hc) as D2.
    destruct (nested_or_apart tree t c Tt Tc) as [Y|[Y|Y]].
    - apply Desc_depth in Y as [Y|Y]; [congruence|lia].
    - apply Desc_depth in Y as [Y|Y]; [congruence|lia].
    - unfold estart, eend in *. lia.
  Qed.

  Lemma same_range p t d : InTree tree p -> is_node p = true -> In t (children_with_tokens p) -> is_node t = false ->
    InTree tree d -> is_node d = true ->
    rank (ekind d) = 0 \/ (exists u, In u (children_with_tokens d) /\ is_node u = false) ->
    key_is_range (key_of d) (estart p) (eend p) = true -> d = p.
  Proof.
    intros Tp Np Ht Nt Td Nd Hd H. apply andb_prop in H as [E1 E2]. apply Nat.eqb_eq in E1, E2.
    change (key_start (key_of d)) with (estart d) in E1. change (key_end (key_of d)) with (eend d) in E2.
    assert (G : glen (el d) = glen (el p)) by (unfold estart, eend in *; lia).
    assert (L : 0 < glen (el p)).
    { assert (Tt : InTree tree t) by exact (Desc_step _ _ _ Tp Ht). pose proof (token_nonempty src t Tt Nt).
      pose proof (child_range _ _ Ht). unfold estart, eend in *. lia. }
    destruct (nested_or_apart tree d p Td Tp) as [D|[D|D]].
    - destruct (Desc_depth _ _ D) as [E|E]; [exact E|exfalso]. assert (Ne : d <> p) by (intros ->; lia).
      destruct Hd as [R|(u & Hu & Nu)].
      + pose proof (desc_rank _ _ _ _ (parse_of src) d p Td D Np Ne G). lia.
      + pose proof (token_longer d u p Td Hu Nu D Np (fun E => Ne (eq_sym E))). lia.
    - destruct (Desc_depth _ _ D) as [E|E]; [now symmetry|exfalso].
      assert (Ne : d <> p) by (intros ->; lia).
      pose proof (token_longer p t d Tp Ht Nt D Nd Ne). lia.
    - unfold estart, eend in *. lia.
  Qed.

  Lemma key_self e : key_is_range (key_of e) (estart e) (eend e) = true.
  Proof.
    unfold key_is_range. change (key_start (key_of e)) with (estart e). change (key_end (key_of e)) with (eend e).
    now rewrite !Nat.eqb_refl.
  Qed.

  (** What the symbols found at a range are. *)
  Lemma step_cases p t s : InTree tree p -> is_node p = true -> In t (children_with_tokens p) -> is_node t = false ->
    In s (raw_symbols (nodes src)) -> prepare_step src tb p s <> None ->
    s_key s = key_of p /\
    ((exists m k, FuncDef src m k p /\ s = def_symbol m SFunc (N.of_nat k, p))
     \/ (exists m w, Asks p (AModule FuncS) /\ Written p w /\ in_module p m /\ InTree tree m /\ s = ref_sym p m (AModule FuncS) w)).
  Proof.
    intros Tp Np Ht Nt Hs H. unfold prepare_step in H. destruct (s_kind s) eqn:K; try congruence.
    - destruct (key_is_range (s_key s) (estart p) (eend p)) eqn:E; [|congruence].
      destruct (func_sym_out src s Hs K) as (m & k & f & F & ->). cbn [def_symbol s_key snd] in E.
      destruct (func_def_in src m k f F) as (Tf & Nf & _).
      assert (f = p) as ->.
      { apply (same_range p t f); auto. left. destruct F as (_ & _ & _ & _ & S). apply func_kinds in S as [-> | ->]; reflexivity. }
      split; [reflexivity|]. left. exists m, k. auto.
    - destruct (key_is_range (s_key s) (estart p) (eend p)) eqn:E; [|congruence].
      destruct (raw_ref_out src s Hs) as (n & a & w & e & Tn & Nn & A & W & En & ->); [unfold is_ref_kind; now rewrite K|].
      cbn [s_kind] in K. destruct a as [[]| |]; try discriminate. cbn [s_key] in E.
      assert (n = p) as ->.
      { apply (same_range p t n); auto. right. destruct W as [u Hu|u x Hu Hf _].
        - apply token_some in Hu. exists u. tauto.
        - apply find_some in Hf as [Hf _]. exists u. unfold tokens in Hf. apply filter_In in Hf as [Hf1 Hf2].
          split; [exact Hf1|]. now apply negb_true_iff in Hf2. }
      split; [reflexivity|]. right. cbn [enclosing_of] in En. apply enclosing_some in En as [Ea [Ek|[]]].
      destruct (ancestor_node src _ _ Tn Nn Ea) as (Te & De & Ne). exists e, w. repeat split; auto.
  Qed.

  Lemma step_unique p t s s' : InTree tree p -> is_node p = true -> In t (children_with_tokens p) -> is_node t = false ->
    In s (raw_symbols (nodes src)) -> s_key s = key_of p ->
    In s' (raw_symbols (nodes src)) -> prepare_step src tb p s' <> None -> s' = s.
  Proof.
    intros Tp Np Ht Nt Hs K Hs' H. destruct (step_cases p t s' Tp Np Ht Nt Hs' H) as [K' _].
    apply (raw_key_inj src); auto. congruence.
  Qed.

  Lemma prepare_start pos t p : CursorOn src pos t -> parent t = Some p ->
    prepare_call_hierarchy src pos = match find_map (prepare_step src tb p) (symbols tb) with Some a => a | None => NoAns end.
  Proof.
    intros C P. unfold prepare_call_hierarchy, cursor_token. rewrite symbols_spec, C. cbn [abind]. now rewrite P.
  Qed.

  Lemma items_ok m ds : Forall (fun p => nth_error (definitions m) (N.to_nat (fst p)) = Some (snd p) /\ has_sort FuncS (snd p) = true) ds ->
    InTree tree m -> is_node m = true -> ekind m = MODULE ->
    exists its, map_ans (call_item_of src tb) (map (def_symbol m SFunc) ds) = Ans its
      /\ Forall2 (ItemOf src) (map snd ds) its.
  Proof.
    intros H Tm Nm Km. induction H as [|[k d] ds [H1 H2] _ (its & E & F)]; cbn [map map_ans].
    - exists []. split; [reflexivity|constructor].
    - cbn [fst snd] in H1, H2. assert (FD : FuncDef src m (N.to_nat k) d) by (repeat (split; [assumption|]); exact H2).
      destruct (item_ok src m (N.to_nat k) d FD) as (it & Ei & Hi). rewrite N2Nat.id in Ei. rewrite Ei, E. cbn [abind].
      exists (it :: its). split; [reflexivity|]. constructor; [|exact F]. now apply Hi.
  Qed.

  Lemma prepare_func pos t m k f : CursorOn src pos t -> parent t = Some f -> FuncDef src m k f ->
    exists it, prepare_call_hierarchy src pos = Ans [it] /\ ItemOf src f it.
  Proof.
    intros C P F. destruct (cursor_node _ _ _ _ C P) as (_ & Nt & Tf & Nf & Ht).
    rewrite (prepare_start pos t f C P). destruct (item_ok src m k f F) as (it & Ei & Hi).
    pose proof (func_sym src m k f F) as Hs.
    rewrite (find_map_one _ _ (def_symbol m SFunc (N.of_nat k, f)) (Ans [it])).
    - exists it. split; [reflexivity|now apply Hi].
    - exact Hs.
    - unfold prepare_step. cbn [def_symbol s_kind s_key snd]. rewrite key_self.
      change (mk_symbol (key_of f) (el f) (key_of m) SFunc (mk_idx (Some (fst (N.of_nat k, f))) (ident_of f)))
        with (def_symbol m SFunc (N.of_nat k, f)). rewrite Ei. reflexivity.
    - intros z Hz Hn. now apply (step_unique f t _ _ Tf Nf Ht Nt Hs).
  Qed.

  Lemma prepare_ref pos t n w m : CursorOn src pos t -> parent t = Some n ->
    Asks n (AModule FuncS) -> Written n w -> in_module n m -> InTree tree m ->
    exists its, prepare_call_hierarchy src pos = Ans its /\ Forall2 (ItemOf src) (targets m FuncS w) its.
  Proof.
    intros C P A W M Tm. destruct (cursor_node _ _ _ _ C P) as (_ & Nt & Tn & Nn & Ht).
    rewrite (prepare_start pos t n C P).
    assert (Hs : In (ref_sym n m (AModule FuncS) w) (raw_symbols (nodes src)))
      by (apply raw_ref_in; auto; now apply (module_enclosing src)).
    destruct (items_ok m (filter (matches FuncS w) (enum 0 (definitions m)))) as (its & E & F); [|exact Tm|apply M|apply M|].
    - apply Forall_forall. intros [i d] H. apply filter_In in H as [H1 H2]. apply in_enum in H1 as (j & Hj & Ei).
      cbn [fst snd] in *. rewrite N.add_0_l in Ei. subst i. rewrite Nat2N.id. split; [exact Hj|].
      unfold matches in H2. now apply andb_prop in H2 as [H2 _].
    - rewrite (find_map_one _ _ (ref_sym n m (AModule FuncS) w) (Ans its)).
      + exists its. split; [reflexivity|]. now rewrite targets_matches.
      + exact Hs.
      + unfold prepare_step. cbn [ref_sym s_kind s_key ref_kind]. rewrite key_self.
        rewrite (find_defs_spec src n FuncS w m Tn Nn A W M Tm). now rewrite <- E.
      + intros z Hz Hn. now apply (step_unique n t _ _ Tn Nn Ht Nt Hs).
  Qed.
End Doc.

(** ** C46: prepare call hierarchy *)

(** On a token of a function: the item of the function. *)
Theorem C46_function src pos t m k f :
  CursorOn src pos t -> parent t = Some f -> FuncDef src m k f ->
  exists it, prepare_call_hierarchy src pos = Ans [it] /\ ItemOf src f it.
Proof. apply prepare_func. Qed.

(** On a reference to functions: the items of those functions, in order. *)
Theorem C46_reference src pos t n w m :
  CursorOn src pos t -> parent t = Some n ->
  Asks n (AModule FuncS) -> Written n w -> in_module n m -> InTree (tree_of src) m ->
  exists its, prepare_call_hierarchy src pos = Ans its /\ Forall2 (ItemOf src) (targets m FuncS w) its.
Proof. apply prepare_ref. Qed.

(** There is no other answer, and nothing but the position can make it panic. *)
Theorem C46_only src pos its :
  prepare_call_hierarchy src pos = Ans its ->
  exists t n, CursorOn src pos t /\ parent t = Some n
    /\ ((exists m k, FuncDef src m k n)
        \/ exists w m, Asks n (AModule FuncS) /\ Written n w /\ in_module n m /\ InTree (tree_of src) m).
Proof.
  intros H. unfold prepare_call_hierarchy in H. rewrite symbols_spec in H. cbn [abind] in H.
  destruct (cursor_token src pos) as [t| |] eqn:C; try discriminate. cbn [abind] in H.
  destruct (parent t) as [n|] eqn:P; cbn [aopt abind] in H; [|discriminate].
  destruct (find_map (prepare_step src (the_table src) n) (symbols (the_table src))) as [a|] eqn:E; [|discriminate].
  apply find_map_some in E as (s & Hs & Es). change (CursorOn src pos t) in C.
  destruct (cursor_node _ _ _ _ C P) as (_ & Nt & Tn & Nn & Ht).
  destruct (step_cases src n t s Tn Nn Ht Nt Hs) as [_ [(m & k & F & _)|(m & w & A & W & M & Tm & _)]]; [congruence| |].
  - exists t, n. split; [exact C|]. split; [exact P|]. left. eauto.
  - exists t, n. split; [exact C|]. split; [exact P|]. right. exists w, m. auto.
Qed.
Theorem C46_panics src pos :
  prepare_call_hierarchy src pos = Panics <->
  find_meaningful_token (new_line_index src) (root_of (tree_of src)) pos = Panics.
Proof.
  fold (cursor_token src pos). destruct (cursor_token src pos) as [t| |] eqn:C.
  - split; [|discriminate]. intros H. exfalso. change (CursorOn src pos t) in C. destruct (parent t) as [n|] eqn:P.
    + pose proof H as H0. rewrite (prepare_start src pos t n C P) in H.
      destruct (find_map (prepare_step src (the_table src) n) (symbols (the_table src))) as [a|] eqn:E; [|discriminate].
      apply find_map_some in E as (s & Hs & Es).
      destruct (cursor_node _ _ _ _ C P) as (_ & Nt & Tn & Nn & Ht).
      destruct (step_cases src n t s Tn Nn Ht Nt Hs) as [_ [(m & k & F & _)|(m & w & A & W & M & Tm & _)]]; [congruence| |].
      * destruct (prepare_func src pos t m k n C P F) as (it & E & _). congruence.
      * destruct (prepare_ref src pos t n w m C P A W M Tm) as (its & E & _). congruence.
    + unfold prepare_call_hierarchy, cursor_token in H. rewrite symbols_spec, C in H. cbn [abind] in H. rewrite P in H. discriminate.
  - unfold prepare_call_hierarchy. rewrite symbols_spec, C. cbn [abind]. split; discriminate.
  - unfold prepare_call_hierarchy. rewrite symbols_spec, C. cbn [abind]. split; reflexivity.
Qed.

(** The item leads to the calls: its range is one that the two other requests
    accept (C27). *)
Theorem C46_leads_to_calls src pos its it :
  prepare_call_hierarchy src pos = Ans its -> In it its ->
  exists l l', incoming_calls src (it_range it) = Ans l /\ outgoing_calls src (it_range it) = Ans l'.
Proof.
  intros H Hin. assert (X : exists f, ItemOf src f it).
  { destruct (C46_only src pos its H) as (t & n & C & P & [(m & k & F)|(w & m & A & W & M & Tm)]).
    - destruct (C46_function src pos t m k n C P F) as (i & E & Hi). rewrite H in E. injection E as ->.
      destruct Hin as [<-|[]]. eauto.
    - destruct (C46_reference src pos t n w m C P A W M Tm) as (is & E & F). rewrite H in E. injection E as <-.
      clear -F Hin. induction F as [|d i ds is Hd _ IH]; [destruct Hin|]. destruct Hin as [<-|Hin]; eauto. }
  destruct X as (f & m & k & F & _ & _ & R & _).
  destruct (C27_incoming src m k f _ F R) as (l & E1 & _). destruct (C27_outgoing src m k f _ F R) as (l' & E2 & _). eauto.
Qed.

(** ** C47: prepare rename *)

Theorem C47_offers src pos r :
  prepare_rename src pos = Ans r <-> exists t, CursorOn src pos t /\ ekind t = IDENT /\ RangeOf src t r.
Proof.
  unfold prepare_rename. destruct (cursor_token src pos) as [t| |] eqn:C; cbn [abind].
  - change (CursorOn src pos t) in C.
    assert (Tt : InTree (tree_of src) t) by (apply meaningful_in in C as (x & _ & (T & N) & _); exact T).
    destruct (range_of_ok src t Tt) as (r' & E & R).
    destruct (kind_eqb (ekind t) IDENT) eqn:K.
    + apply kind_eqb_eq in K. rewrite E. split.
      * intros [= <-]. exists t. auto.
      * intros (t' & C' & _ & R'). unfold CursorOn in C, C'. rewrite C in C'. injection C' as <-. f_equal. now apply (range_fun src t).
    + split; [discriminate|]. intros (t' & C' & K' & _). unfold CursorOn in C, C'. rewrite C in C'. injection C' as <-.
      rewrite K' in K. discriminate.
  - split; [discriminate|]. intros (t & C' & _). unfold CursorOn in C'. unfold cursor_token in C. congruence.
  - split; [discriminate|]. intros (t & C' & _). unfold CursorOn in C'. unfold cursor_token in C. congruence.
Qed.
(** Where the request has no answer, renaming to a valid name is refused, and
    nowhere else. *)
Theorem C47_agrees src pos new : ValidName new ->
  (prepare_rename src pos = NoAns <-> rename src pos new = CantRename)
  /\ (prepare_rename src pos = Panics <-> rename src pos new = RenamePanics).
Proof.
  intros V. split.
  - apply valid_name_iff in V. unfold prepare_rename, rename. rewrite V.
    destruct (cursor_token src pos) as [t| |] eqn:C; cbn [abind]; [|tauto|split; discriminate].
    destruct (kind_eqb (ekind t) IDENT) eqn:K; [|tauto]. change (CursorOn src pos t) in C.
    assert (Tt : InTree (tree_of src) t) by (apply meaningful_in in C as (x & _ & (T & N) & _); exact T).
    destruct (range_of_ok src t Tt) as (r' & -> & R). split; [discriminate|]. destruct (rename_impl src t); discriminate.
  - rewrite C22_panics_only_at_bad_positions. unfold prepare_rename.
    destruct (cursor_token src pos) as [t| |] eqn:C; cbn [abind]; [|split; [discriminate|intros [_ ?]; discriminate]|tauto].
    destruct (kind_eqb (ekind t) IDENT) eqn:K; [|split; [discriminate|intros [_ ?]; discriminate]]. change (CursorOn src pos t) in C.
    assert (Tt : InTree (tree_of src) t) by (apply meaningful_in in C as (x & _ & (T & N) & _); exact T).
    destruct (range_of_ok src t Tt) as (r' & -> & R). split; [discriminate|intros [_ ?]; discriminate].
Qed.

(** ** Cases *)

Definition names_at (src : text) (pos : nat * nat) : option (list (text * range)) :=
  match prepare_call_hierarchy src pos with
  | Ans l => Some (map (fun i => (it_name i, it_range i)) l)
  | _ => None
  end.
Example C46_case :
  names_at ex_calls (0, 51) = Some [(Text.T "$f", ((0, 45), (0, 87)))]
  /\ names_at ex_calls (0, 67) = Some [(Text.T "$g", ((0, 8), (0, 44)))]
  /\ names_at ex_calls (0, 96) = Some [(Text.T "$f", ((0, 45), (0, 87)))]
  /\ names_at ex_calls (0, 40) = None.
Proof. repeat split; vm_compute; reflexivity. Qed.
Example C47_case :
  prepare_rename ex_calls (0, 67) = Ans ((0, 66), (0, 68)) /\ prepare_rename ex_calls (0, 77) = NoAns
  /\ ValidName (Text.T "$new").
Proof. split; [vm_compute; reflexivity|]. split; [vm_compute; reflexivity|]. apply valid_name_iff. vm_compute. reflexivity. Qed.
