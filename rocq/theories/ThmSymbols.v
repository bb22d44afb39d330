(** Document symbols (C26). *)

From Coq Require Import String List NArith Bool Arith Lia Sorted Permutation.
From Verif Require Import Text Kind Green SpecParser Lexer LexerFacts Winnow Grammar Sem Lossless Total
  Bounds Lang TokForm Shape ThmParser Red Unique LineIndex ThmTree Cursor ThmPos Doc Ast Binder Preorder SpecBinder BinderFacts
  BinderDefs Blocks Nav NavSpec NavFacts ThmNav RefFacts ThmRefs SymCases TokKinds InstrMeta Types Check CheckFacts
  CheckMsgs ThmCheck ThmDup SpecTypes SigFacts SpecHeader HeaderFacts Counts Features ThmStructure ThmCalls.
Import ListNotations.

(** ** Specification *)

(** An entry for the node [d], shown under its identifier or its number [n]:
    its range is that of the node, the selection that of the identifier. *)
Definition Entry (src : text) (d : elem) (n : N) (k : lsp_kind) (kids : option (list doc_symbol)) (ds : doc_symbol) : Prop :=
  ds_name ds = match token d IDENT with Some t => etext t | None => shown_ref (Numbered n) end
  /\ ds_kind ds = k /\ RangeOf src d (ds_range ds)
  /\ RangeOf src (match token d IDENT with Some t => t | None => d end) (ds_selection ds)
  /\ ds_children ds = kids.

(** The locals declared by a definition, numbered after its parameters. *)
Definition own_locals (d : elem) : list elem := flat_map entries (childs d LOCAL).
Definition own_params (d : elem) : list elem :=
  match child d TYPE_USE with Some tu => flat_map entries (childs tu PARAM) | None => [] end.
Definition numbered_locals (d : elem) : list (N * elem) := enum (N.of_nat (length (own_params d))) (own_locals d).
Definition LocalEntry (src : text) (p : N * elem) (ds : doc_symbol) : Prop :=
  Entry src (snd p) (fst p) KVariable None ds.

(** A list of children is absent when there is none. *)
Definition Kids {A} (R : A -> doc_symbol -> Prop) (l : list A) (kids : option (list doc_symbol)) : Prop :=
  match l with
  | [] => kids = None
  | _ => exists ds, kids = Some ds /\ Forall2 R l ds
  end.

(** A definition of a module, with its locals. *)
Definition DefEntry (src : text) (p : N * elem) (ds : doc_symbol) : Prop :=
  exists kids, Kids (LocalEntry src) (numbered_locals (snd p)) kids
    /\ Entry src (snd p) (fst p) (if has_sort FuncS (snd p) then KFunction else KVariable) kids ds.

(** A module, with its definitions. *)
Definition ModuleEntry (src : text) (m : elem) (ds : doc_symbol) : Prop :=
  ds_name ds = Text.T "module" /\ ds_kind ds = KModule /\ RangeOf src m (ds_range ds) /\ ds_selection ds = ds_range ds
  /\ Kids (DefEntry src) (enum 0 (definitions m)) (ds_children ds).

(** The modules of a document that define anything, in source order. *)
Definition full_modules (src : text) : list elem :=
  filter (fun m => kind_eqb (ekind m) MODULE && match definitions m with [] => false | _ => true end)
    (descendants (root_of (tree_of src))).

(** ** Attaching children *)

Definition set_kids (d : doc_symbol) (l : list doc_symbol) : doc_symbol :=
  match l with
  | [] => d
  | _ => mk_ds (ds_name d) (ds_kind d) (ds_range d) (ds_selection d) (Some l)
  end.
Definition listed (s : symbol) : bool := match is_field_kind (s_kind s) with Some _ => true | None => false end.
Definition at_root (s : symbol) : bool := kind_eqb (key_kind (s_region s)) ROOT.

Lemma find_app {A} (f : A -> bool) l1 l2 : find f (l1 ++ l2) = match find f l1 with Some x => Some x | None => find f l2 end.
Proof. induction l1 as [|x l IH]; cbn; [reflexivity|]. destruct (f x); auto. Qed.
Lemma set_kids_rev d l : ds_children d = None -> reverse_children (set_kids d (rev l)) = set_kids d l.
Proof.
  intros H. destruct l as [|x l].
  - cbn. destruct d as [a b c e f]. cbn in H. subst. reflexivity.
  - cbn [rev]. destruct (rev l ++ [x]) as [|y r] eqn:E; [now destruct (rev l)|].
    unfold set_kids, reverse_children. cbn [ds_name ds_kind ds_range ds_selection ds_children option_map].
    rewrite <- E, rev_app_distr, rev_involutive. reflexivity.
Qed.
Lemma set_kids_push d l c : ds_children d = None -> push_child c (set_kids d (rev l)) = set_kids d (rev (c :: l)).
Proof.
  intros H. cbn [rev]. destruct (rev l ++ [c]) as [|y r] eqn:E; [now destruct (rev l)|].
  destruct (rev l) as [|z w]; cbn [set_kids]; unfold push_child; cbn [ds_name ds_kind ds_range ds_selection ds_children].
  - rewrite H. cbn in *. congruence.
  - now rewrite E.
Qed.

Section Forest.
  Variable L : list symbol.
  Variable base : symbol -> doc_symbol.
  Hypothesis Hkeys : NoDup (map s_key L).
  Hypothesis Hbase : forall s, ds_children (base s) = None.

  Definition is_kid (k : key) (c : symbol) : bool := listed c && negb (at_root c) && key_eqb (s_region c) k.
  Definition kids (S : list symbol) (s : symbol) : list symbol := filter (is_kid (s_key s)) S.
  Definition final (s : symbol) : doc_symbol := set_kids (base s) (map base (kids L s)).
  Hypothesis Hbefore : forall A s B c, L = A ++ s :: B -> In c A -> is_kid (s_key s) c = false.
  Hypothesis Hself : forall s, In s L -> is_kid (s_key s) s = false.
  Hypothesis Hdepth : forall s c, In s L -> In c (kids L s) -> at_root s = false -> kids L c = [].

  Definition partial (S : list symbol) (s : symbol) : doc_symbol := set_kids (base s) (rev (map final (kids S s))).
  Definition entry (S : list symbol) (s : symbol) : key * doc_symbol := (s_key s, partial S s).
  Definition state (A S : list symbol) : symbols_map :=
    map (entry S) (filter listed A ++ filter (fun s => listed s && at_root s) S).

  Lemma get_absent k (m : symbols_map) : ~ In k (map fst m) -> map_get k m = None.
  Proof.
    intros H. unfold map_get. rewrite find_absent; [reflexivity|]. intros p Hp. apply not_true_iff_false. intros E.
    apply key_eqb_eq in E. apply H. rewrite <- E. now apply in_map.
  Qed.
  Lemma remove_absent k (m : symbols_map) : ~ In k (map fst m) -> map_remove k m = m.
  Proof.
    intros H. apply filter_all. intros p Hp. apply negb_true_iff, not_true_iff_false. intros E.
    apply key_eqb_eq in E. apply H. rewrite <- E. now apply in_map.
  Qed.
  Lemma update_absent k f (m : symbols_map) : map_get k m = None -> map_update k f m = m.
  Proof.
    unfold map_get, map_update. induction m as [|p m IH]; cbn; [reflexivity|].
    destruct (key_eqb (fst p) k); cbn; [discriminate|]. intros H. now rewrite IH.
  Qed.
  Lemma attach_update m s d : map_get (s_key s) m = Some d ->
    attach m s = map_update (s_region s) (push_child (reverse_children d)) (map_remove (s_key s) m).
  Proof.
    intros E. unfold attach. rewrite E. destruct (map_get (s_region s) _) eqn:E2; [reflexivity|].
    now rewrite update_absent.
  Qed.
  Lemma state_keys A S : map fst (state A S) = map s_key (filter listed A ++ filter (fun s => listed s && at_root s) S).
  Proof. unfold state. rewrite map_map. reflexivity. Qed.
  Lemma key_once A s B x : L = A ++ s :: B -> In x A \/ In x B -> s_key x <> s_key s.
  Proof.
    intros E Hx Ek. rewrite E, map_app in Hkeys. cbn in Hkeys. apply NoDup_remove_2 in Hkeys. apply Hkeys.
    rewrite <- Ek. apply in_or_app. destruct Hx as [H|H]; [left|right]; now apply in_map.
  Qed.
  Lemma kids_skip S s x : is_kid (s_key s) x = false -> kids (x :: S) s = kids S s.
  Proof. intros H. unfold kids. cbn [filter]. now rewrite H. Qed.
  Lemma kids_suffix A s B : L = A ++ s :: B -> kids B s = kids L s.
  Proof.
    intros E. rewrite E at 1. unfold kids. rewrite filter_app. cbn [filter].
    rewrite (filter_none (is_kid (s_key s)) A) by (intros c Hc; eapply Hbefore; eauto).
    rewrite Hself; [reflexivity|]. rewrite E. apply in_or_app. right. now left.
  Qed.

  Lemma state_step A s B : L = A ++ s :: B ->
    (if at_root s then state (A ++ [s]) B else attach (state (A ++ [s]) B) s) = state A (s :: B).
  Proof.
    intros E. unfold state. rewrite filter_app. cbn [filter].
    destruct (at_root s) eqn:Hr; destruct (listed s) eqn:Hl; cbn [andb]; rewrite <- ?app_assoc; cbn [app];
      rewrite ?app_nil_r.
    - apply map_ext. intros p. unfold entry, partial. rewrite kids_skip; [reflexivity|].
      unfold is_kid. now rewrite Hr, andb_false_r.
    - apply map_ext. intros p. unfold entry, partial. rewrite kids_skip; [reflexivity|].
      unfold is_kid. now rewrite Hr, andb_false_r.
    - rewrite map_app. cbn [map].
      assert (Ha : forall l, (forall x, In x l -> In x A \/ In x B) -> ~ In (s_key s) (map fst (map (entry B) l))).
      { intros l H1 H2. rewrite map_map in H2. apply in_map_iff in H2 as (x & Ex & Hx). cbn in Ex.
        now apply (key_once A s B x E (H1 _ Hx)). }
      assert (HA : ~ In (s_key s) (map fst (map (entry B) (filter listed A)))).
      { apply Ha. intros x Hx. apply filter_In in Hx as [Hx _]. auto. }
      assert (HB : ~ In (s_key s) (map fst (map (entry B) (filter (fun s => listed s && at_root s) B)))).
      { apply Ha. intros x Hx. apply filter_In in Hx as [Hx _]. auto. }
      rewrite (attach_update _ _ (partial B s)).
      + unfold map_remove. rewrite filter_app. cbn [filter fst entry]. rewrite key_eqb_refl. cbn [negb].
        fold (map_remove (s_key s) (map (entry B) (filter listed A))).
        fold (map_remove (s_key s) (map (entry B) (filter (fun s => listed s && at_root s) B))).
        rewrite !remove_absent by assumption. rewrite <- map_app.
        unfold map_update. rewrite map_map. apply map_ext. intros p. cbn [fst snd entry].
        assert (Hk : kids (s :: B) p = if key_eqb (s_key p) (s_region s) then s :: kids B p else kids B p).
        { unfold kids. cbn [filter]. unfold is_kid at 1. rewrite Hl, Hr. cbn [negb andb].
          destruct (key_eqb (s_key p) (s_region s)) eqn:Ek.
          - apply key_eqb_eq in Ek. now rewrite <- Ek, key_eqb_refl.
          - destruct (key_eqb (s_region s) (s_key p)) eqn:Ek2; [|reflexivity].
            apply key_eqb_eq in Ek2. now rewrite Ek2, key_eqb_refl in Ek. }
        unfold entry. unfold partial at 4. rewrite Hk. destruct (key_eqb (s_key p) (s_region s)) eqn:Ek; [|reflexivity].
        f_equal. unfold partial. rewrite set_kids_rev by apply Hbase. rewrite set_kids_push by apply Hbase.
        rewrite map_cons. do 3 f_equal. unfold final at 2. f_equal. rewrite (kids_suffix A s B E). apply map_ext_in. intros c Hc.
        unfold final. rewrite (Hdepth s c); auto. rewrite E. apply in_or_app. right. now left.
      + unfold map_get. rewrite find_app. cbn [find entry fst].
        replace (find _ (map (entry B) (filter listed A))) with (@None (key * doc_symbol)).
        * rewrite key_eqb_refl. reflexivity.
        * symmetry. apply find_absent. intros q Hq. apply not_true_iff_false. intros X. apply key_eqb_eq in X. apply HA.
          rewrite <- X. now apply in_map.
    - assert (HA : ~ In (s_key s) (map fst (map (entry B) (filter listed A ++ filter (fun s => listed s && at_root s) B)))).
      { intros H2. rewrite map_map in H2. apply in_map_iff in H2 as (x & Ex & Hx). cbn in Ex.
        apply (key_once A s B x E); [|exact Ex]. apply in_app_iff in Hx as [Hx|Hx]; apply filter_In in Hx as [Hx _]; auto. }
      unfold attach. rewrite get_absent by exact HA. apply map_ext. intros p. unfold entry, partial.
      rewrite kids_skip; [reflexivity|]. unfold is_kid. now rewrite Hl.
  Qed.

  Lemma attach_all : forall B A, L = A ++ B ->
    fold_left attach (rev (filter (fun s => negb (at_root s)) B)) (state L []) = state A B.
  Proof.
    induction B as [|s B IH]; intros A E.
    - cbn. rewrite app_nil_r in E. now subst.
    - rewrite <- (state_step A s B E). cbn [filter]. destruct (at_root s); cbn [negb].
      + apply (IH (A ++ [s])). now rewrite <- app_assoc.
      + cbn [rev]. rewrite fold_left_app. cbn [fold_left]. rewrite (IH (A ++ [s])); [reflexivity|]. now rewrite <- app_assoc.
  Qed.
  Lemma insert_all l : forall acc, NoDup (map fst (acc ++ l)) -> fold_left map_insert l acc = acc ++ l.
  Proof.
    induction l as [|p l IH]; intros acc H; cbn [fold_left]; [now rewrite app_nil_r|].
    unfold map_insert at 2. rewrite remove_absent.
    - rewrite IH; rewrite <- app_assoc; [reflexivity|exact H].
    - rewrite map_app in H. cbn in H. apply NoDup_remove_2 in H. intros X. apply H. apply in_or_app. now left.
  Qed.
  Lemma initial : map (fun s => (s_key s, base s)) (filter listed L) = state L [].
  Proof. unfold state. cbn [filter]. rewrite app_nil_r. reflexivity. Qed.

  Lemma forest :
    flat_map (fun p => match ds_children (snd p) with Some _ => [reverse_children (snd p)] | None => [] end)
      (fold_left attach (rev (filter (fun s => negb (at_root s)) L))
        (fold_left map_insert (map (fun s => (s_key s, base s)) (filter listed L)) []))
    = map (fun s => set_kids (base s) (map final (kids L s)))
        (filter (fun s => listed s && at_root s && match kids L s with [] => false | _ => true end) L).
  Proof.
    rewrite insert_all; [|cbn; rewrite map_map; cbn; revert Hkeys; generalize L as l; clear].
    - cbn [app]. rewrite initial. rewrite (attach_all L []) by reflexivity. unfold state. cbn [filter app].
      enough (H : forall l, flat_map (fun p : key * doc_symbol => match ds_children (snd p) with Some _ => [reverse_children (snd p)] | None => [] end)
          (map (entry L) (filter (fun s => listed s && at_root s) l))
        = map (fun s => set_kids (base s) (map final (kids L s)))
            (filter (fun s => listed s && at_root s && match kids L s with [] => false | _ => true end) l)) by apply H.
      intros l. induction l as [|s l IH]; cbn [filter map flat_map]; [reflexivity|].
      destruct (listed s && at_root s); cbn [andb]; [|exact IH].
      cbn [map flat_map entry snd fst]. rewrite IH. unfold partial. rewrite set_kids_rev by apply Hbase.
      destruct (kids L s) as [|c cs] eqn:K; cbn [map rev].
      + cbn [set_kids]. now rewrite Hbase.
      + destruct (rev (map final cs) ++ [final c]) as [|y r] eqn:X; [now destruct (rev (map final cs))|].
        cbn [set_kids ds_children app map]. now rewrite K.
    - intros l H. induction l as [|s l IH]; [constructor|]. cbn in H. inversion H; subst. cbn [filter].
      destruct (listed s); [|auto]. cbn. constructor; [|auto]. intros X. apply in_map_iff in X as (x & E & Hx).
      apply filter_In in Hx as [Hx _]. apply H2. rewrite <- E. now apply in_map.
  Qed.
End Forest.

(** ** Order of the symbols *)

Definition Before {A} (l : list A) (x y : A) : Prop := exists a b c, l = a ++ x :: b ++ y :: c.
Lemma before_flat {A B} (f : A -> list B) l a b x y : Before l a b -> In x (f a) -> In y (f b) -> Before (flat_map f l) x y.
Proof.
  intros (p & q & r & ->) Hx Hy. apply in_split in Hx as (x1 & x2 & Ex). apply in_split in Hy as (y1 & y2 & Ey).
  rewrite flat_map_app. cbn [flat_map]. rewrite flat_map_app. cbn [flat_map]. rewrite Ex, Ey.
  exists (flat_map f p ++ x1), (x2 ++ flat_map f q ++ y1), (y2 ++ flat_map f r). rewrite <- ?app_assoc. cbn [app].
  now rewrite <- ?app_assoc.
Qed.
Lemma before_inside {A B} (f : A -> list B) l a x y : In a l -> Before (f a) x y -> Before (flat_map f l) x y.
Proof.
  intros H (p & q & r & E). apply in_split in H as (l1 & l2 & ->). rewrite flat_map_app. cbn [flat_map]. rewrite E.
  exists (flat_map f l1 ++ p), q, (r ++ flat_map f l2). rewrite <- ?app_assoc. cbn [app]. now rewrite <- ?app_assoc.
Qed.
Lemma before_irrefl {A} (l : list A) x : NoDup l -> ~ Before l x x.
Proof.
  intros H (a & b & c & E). rewrite E in H. apply NoDup_remove_2 in H. apply H. apply in_or_app. right. apply in_or_app. right. now left.
Qed.
Lemma before_after {A} (l : list A) x y a b : NoDup l -> Before l x y -> l = a ++ x :: b -> ~ In y a.
Proof.
  intros H (p & q & r & E) E2 Hy. apply in_split in Hy as (a1 & a2 & ->).
  assert (X : a1 ++ y :: (a2 ++ x :: b) = (p ++ x :: q) ++ y :: r).
  { rewrite <- app_assoc. cbn [app]. rewrite <- E, E2. now rewrite <- app_assoc. }
  assert (Ha : forall (u u' : list A) v v', NoDup (u ++ y :: v) -> u ++ y :: v = u' ++ y :: v' -> u = u').
  { clear. induction u as [|z u IH]; intros u' v v' N E.
    - destruct u' as [|w u']; [reflexivity|]. cbn in *. injection E as <- E. exfalso. inversion N; subst. apply H1.
      apply in_or_app. right. now left.
    - destruct u' as [|w u']; cbn in *; injection E as E1 E2.
      + subst. exfalso. inversion N; subst. apply H1. apply in_or_app. right. now left.
      + subst. f_equal. inversion N; subst. eapply IH; eauto. }
  assert (N1 : NoDup (a1 ++ y :: (a2 ++ x :: b))) by (rewrite X, <- app_assoc; cbn [app]; now rewrite <- E).
  apply (Ha a1 (p ++ x :: q) _ r N1) in X. subst a1.
  rewrite E2 in H. rewrite <- !app_assoc in H. cbn [app] in H. apply NoDup_remove_2 in H. apply H.
  apply in_or_app. right. apply in_or_app. right. right. apply in_or_app. right. now left.
Qed.

Section Doc.
  Variable src : text.
  Notation tree := (tree_of src).
  Notation nodes := (nodes src).
  Notation tb := (the_table src).
  Notation raw := (raw_symbols nodes).

  Lemma owner_of s n : In s raw -> InTree tree n -> is_node n = true -> s_key s = key_of n ->
    exists id e, In (id, e) nodes /\ In s (node_symbols id e) /\ owner n = Some e.
  Proof.
    intros Hs T N E. apply raw_in in Hs as (id & e & He & Hs). exists id, e. split; [exact He|]. split; [exact Hs|].
    destruct (raw_node src _ _ _ He Hs) as (n' & T' & N' & O & E'). replace n with n'; [exact O|].
    apply (key_inj src); auto. congruence.
  Qed.
  Lemma nodes_before a e i j : In (i, a) nodes -> In (j, e) nodes -> Desc a e -> a <> e -> Before nodes (i, a) (j, e).
  Proof.
    intros Ha He D Hn. apply in_split in He as (l1 & l2 & E).
    assert (E' : descendants (root_of tree) = map snd l1 ++ e :: map snd l2).
    { rewrite <- (number_snd 0 (descendants (root_of tree))). unfold BinderFacts.nodes in E. rewrite E, map_app. reflexivity. }
    pose proof (nodes_in _ _ _ Ha) as [Ta Na].
    pose proof (preorder_ancestor _ _ _ _ _ E' Ta D Hn Na) as H. apply in_map_iff in H as ((i' & a') & Ea & H). cbn in Ea. subst a'.
    assert (i' = i) as ->.
    { apply (nodes_fun src i' i a); [|exact Ha]. rewrite E. apply in_or_app. now left. }
    apply in_split in H as (x & y & ->). exists x, y, l2. rewrite E, <- app_assoc. reflexivity.
  Qed.

  Lemma listed_cases s : In s raw -> listed s = true ->
    (exists m, InTree tree m /\ is_node m = true /\ ekind m = MODULE
        /\ s = mk_symbol (key_of m) (el m) (key_of (root_of tree)) SModule (mk_idx None None))
    \/ (exists m so i d, InTree tree m /\ is_node m = true /\ ekind m = MODULE /\ In (i, d) (enum 0 (definitions m))
        /\ has_sort so d = true /\ s = def_symbol m (sort_kind so) (i, d))
    \/ (exists f i d, InTree tree f /\ is_node f = true /\ ekind f = MODULE_FIELD_FUNC /\ In (i, d) (enum 0 (locals_space f))
        /\ s = local_symbol f (i, d) /\ s_kind s = SLocal).
  Proof.
    intros Hs Hl. destruct (raw_cases src s Hs) as [m A B C E|m so i d A B C D E F|f i d A B C D E|b p A B C D E|n a w e A B C D E F].
    - left. exists m. auto.
    - right. left. exists m, so, i, d. auto 8.
    - right. right. exists f, i, d. repeat (split; [assumption|]). unfold listed in Hl. rewrite E in Hl |- *. cbn in Hl |- *.
      unfold slot_kind in *. destruct N.ltb; [discriminate|reflexivity].
    - exfalso. rewrite E in Hl. discriminate.
    - exfalso. rewrite F in Hl. destruct a as [[]| |]; discriminate.
  Qed.
  Lemma def_owner so d : has_sort so d = true -> owner d = Some d.
  Proof. unfold has_sort, def_sort, owner. destruct (ekind d); try discriminate; reflexivity. Qed.
  Lemma def_in m i d : InTree tree m -> In (i, d) (enum 0 (definitions m)) ->
    InTree tree d /\ is_node d = true /\ Desc m d /\ is_def d = true.
  Proof.
    intros T H. apply in_enum in H as (j & Hj & _). cbn in Hj. apply nth_error_In in Hj. apply filter_In in Hj as [Hj S].
    apply in_descendants_of in Hj as [D N]. split; [eapply Desc_trans; eauto|]. auto.
  Qed.
  Lemma slot_owner_func f i d : InTree tree f -> is_node f = true -> ekind f = MODULE_FIELD_FUNC -> In (i, d) (enum 0 (locals_space f)) ->
    InTree tree d /\ is_node d = true /\ owner d = Some f.
  Proof.
    intros T N K H. apply in_enum in H as (j & Hj & _). cbn in Hj. apply nth_error_In in Hj. rewrite locals_space_slots in Hj.
    apply (slot_facts src) in Hj as (H1 & H2 & H3 & H4 & H5); [|assumption|assumption].
    split; [exact H1|]. split; [exact H2|]. unfold owner. cbn in H3.
    destruct H3 as [X|[X|[X|[]]]]; rewrite <- X; exact H5.
  Qed.

  Lemma kid_after s c : In s raw -> In c raw -> is_kid (s_key s) c = true -> Before raw s c.
  Proof.
    intros Hs Hc K. unfold is_kid in K. apply andb_prop in K as [K Ek]. apply andb_prop in K as [Kl Kr].
    apply key_eqb_eq in Ek. unfold at_root in Kr.
    destruct (listed_cases c Hc Kl) as [(m & T & N & Km & E)|[(m & so & i & d & T & N & Km & Hd & So & E)|(f & i & d & T & N & Kf & Hd & E & _)]].
    - rewrite E in Kr. cbn in Kr. rewrite root_kind in Kr. discriminate.
    - rewrite E in Ek. cbn in Ek. symmetry in Ek.
      destruct (def_in m i d T Hd) as (Td & Nd & D & _).
      destruct (owner_of s m Hs T N Ek) as (i1 & e1 & H1 & H2 & O1).
      destruct (owner_of c d Hc Td Nd) as (i2 & e2 & H3 & H4 & O2); [now rewrite E|].
      rewrite (def_owner so) in O2 by assumption. injection O2 as <-.
      unfold owner in O1. rewrite Km in O1. injection O1 as <-.
      apply (before_flat _ _ (i1, m) (i2, d)); [|exact H2|exact H4]. apply nodes_before; auto.
      intros X. subst d. unfold has_sort, def_sort in So. rewrite Km in So. discriminate.
    - rewrite E in Ek. cbn in Ek. symmetry in Ek.
      destruct (slot_owner_func f i d T N Kf Hd) as (Td & Nd & O).
      destruct (owner_of s f Hs T N Ek) as (i1 & e1 & H1 & H2 & O1).
      destruct (owner_of c d Hc Td Nd) as (i2 & e2 & H3 & H4 & O2); [now rewrite E|].
      rewrite O in O2. injection O2 as <-. unfold owner in O1. rewrite Kf in O1. injection O1 as <-.
      assert (i2 = i1) as -> by (eapply nodes_fun; eauto).
      apply (before_inside _ _ (i1, f)); [exact H1|]. cbn [fst snd].
      destruct (parent_ex src f T N) as [X|(p & Tp & Np & Hp & Ep)]; [rewrite X, root_kind in Kf; discriminate|].
      assert (Hn : exists s0 rest, node_symbols i1 f = s0 :: rest /\ s_key s0 = key_of f).
      { unfold node_symbols. rewrite Kf. unfold parent_based. rewrite Ep. cbn [app]. eexists. eexists. split; [reflexivity|]. reflexivity. }
      destruct Hn as (s0 & rest & En & K0).
      assert (Hr : forall x, In x (node_symbols i1 f) -> In x raw) by (intros x Hx; apply raw_in; eauto).
      assert (s0 = s) as ->.
      { apply (raw_key_inj src); [apply Hr; rewrite En; now left|exact Hs|congruence]. }
      rewrite En in H4 |- *. destruct H4 as [X|H4].
      + exfalso. assert (Hk : key_of d = key_of f) by (rewrite <- Ek, X, E; reflexivity).
        assert (X2 : d = f) by (apply (key_inj src); auto). subst d.
        apply in_enum in Hd as (j & Hj & _). cbn in Hj. apply nth_error_In in Hj. rewrite locals_space_slots in Hj.
        apply (slot_facts src) in Hj as (_ & _ & H5 & _); [|assumption|assumption]. rewrite Kf in H5. cbn in H5. intuition discriminate.
      + apply in_split in H4 as (u & v & ->). exists [], u, v. reflexivity.
  Qed.
  Lemma kid_before_not A s B c : raw = A ++ s :: B -> In c A -> is_kid (s_key s) c = false.
  Proof.
    intros E Hc. apply not_true_iff_false. intros K.
    assert (Hs : In s raw) by (rewrite E; apply in_or_app; right; now left).
    assert (Hc' : In c raw) by (rewrite E; apply in_or_app; now left).
    exact (before_after _ _ _ _ _ (raw_nodup src) (kid_after s c Hs Hc' K) E Hc).
  Qed.
  Lemma kid_self_not s : In s raw -> is_kid (s_key s) s = false.
  Proof.
    intros Hs. apply not_true_iff_false. intros K. exact (before_irrefl _ _ (raw_nodup src) (kid_after s s Hs Hs K)).
  Qed.
  Lemma kid_depth s c : In s raw -> In c (kids raw s) -> at_root s = false -> kids raw c = [].
  Proof.
    intros Hs Hc Hr. apply filter_In in Hc as [Hc K]. unfold is_kid in K. apply andb_prop in K as [K Ek].
    apply andb_prop in K as [Kl Kr]. apply key_eqb_eq in Ek.
    apply filter_none. intros x Hx. apply not_true_iff_false. intros K2. unfold is_kid in K2. apply andb_prop in K2 as [K2 Ek2].
    apply andb_prop in K2 as [Kl2 Kr2]. apply key_eqb_eq in Ek2. unfold at_root in *.
    destruct (listed_cases c Hc Kl) as [(m & T & N & Km & E)|[(m & so & i & d & T & N & Km & Hd & So & E)|(f & i & d & T & N & Kf & Hd & E & _)]].
    - rewrite E in Kr. cbn in Kr. rewrite root_kind in Kr. discriminate.
    - rewrite E in Ek. cbn in Ek.
      assert (s = mk_symbol (key_of m) (el m) (key_of (root_of tree)) SModule (mk_idx None None)) as ->.
      { apply (raw_key_inj src); [exact Hs| |symmetry; exact Ek]. destruct (nodes_ex src m T N) as (id & Hid).
        apply raw_in. exists id, m. split; [exact Hid|]. unfold node_symbols. rewrite Km, (module_parent src m) by assumption. now left. }
      cbn in Hr. rewrite root_kind in Hr. discriminate.
    - destruct (slot_owner_func f i d T N Kf Hd) as (Td & Nd & O).
      assert (Kd : In (ekind d) [PARAM; LOCAL; VAL_TYPE]).
      { apply in_enum in Hd as (j & Hj & _). cbn in Hj. apply nth_error_In in Hj. rewrite locals_space_slots in Hj.
        now apply (slot_facts src) in Hj as (_ & _ & H5 & _). }
      rewrite E in Ek2. cbn in Ek2.
      assert (Kx : In (key_kind (s_region x)) [ROOT; MODULE; MODULE_FIELD_FUNC]).
      { destruct (listed_cases x Hx Kl2) as [(m & _ & _ & Km & E')|[(m & so & i' & d' & _ & _ & Km & _ & _ & E')|(f' & i' & d' & _ & _ & Kf' & _ & E' & _)]];
          rewrite E'; cbn; rewrite ?root_kind, ?Km, ?Kf'; auto. }
      rewrite Ek2 in Kx. cbn [key_of key_kind] in Kx. cbn in Kd, Kx.
      destruct Kd as [X|[X|[X|[]]]]; rewrite <- X in Kx; intuition discriminate.
  Qed.
End Doc.

Section Conn.
  Variable src : text.
  Notation tree := (tree_of src).
  Notation nodes := (nodes src).
  Notation tb := (the_table src).
  Notation raw := (raw_symbols nodes).

  Definition sort_of (d : elem) : sort := match def_sort d with Some s => s | None => FuncS end.
  Definition mod_symbol (m : elem) : symbol := mk_symbol (key_of m) (el m) (key_of (root_of tree)) SModule (mk_idx None None).

  (** The children of a module. *)
  Lemma kid_of_def m x : In x raw -> InTree tree m -> is_node m = true -> ekind m = MODULE ->
    is_kid (key_of m) x = key_eqb (s_region x) (key_of m) && is_def_kind x.
  Proof.
    intros Hx T N K. unfold is_kid.
    destruct (key_eqb (s_region x) (key_of m)) eqn:E; [|now rewrite andb_false_r]. rewrite andb_true_r. cbn [andb].
    apply key_eqb_eq in E. unfold at_root. rewrite E. cbn [key_of key_kind]. rewrite K. cbn [kind_eqb negb].
    change (negb (kind_eqb MODULE ROOT)) with true. rewrite andb_true_r.
    destruct (listed x) eqn:L.
    - symmetry. destruct (listed_cases src x Hx L) as [(m' & T' & _ & Km & E')|[(m' & so & i & d & _ & _ & Km & _ & _ & E')|(f & i & d & T' & N' & Kf & _ & E' & _)]].
      + exfalso. rewrite E' in E. cbn in E. assert (X : key_kind (key_of (root_of tree)) = key_kind (key_of m)) by now rewrite E.
        cbn [key_of key_kind] in X. rewrite root_kind, K in X. discriminate.
      + rewrite E'. destruct so; reflexivity.
      + exfalso. rewrite E' in E. cbn in E. exact (module_not_func src m f T T' N N' K Kf (eq_sym E)).
    - symmetry. apply not_true_iff_false. intros D. unfold is_def_kind in D. apply existsb_exists in D as (k & Hk & Ek).
      apply skind_eqb_eq in Ek. unfold listed in L. rewrite Ek in L. cbn in Hk.
      destruct Hk as [<-|[<-|[<-|[<-|[<-|[]]]]]]; discriminate.
  Qed.
  Lemma def_node m id e : InTree tree m -> is_node m = true -> ekind m = MODULE -> InTree tree e -> is_node e = true -> Desc m e ->
    filter (fun x => key_eqb (s_region x) (key_of m) && is_def_kind x) (node_symbols id e)
    = if is_def e then [def_symbol m (sort_kind (sort_of e)) (id, e)] else [].
  Proof.
    intros Tm Nm Km Te Ne D. pose proof (node_defs src id e Te Ne) as H.
    rewrite (filter_ext_in' _ (fun x => is_def_kind x && key_eqb (s_region x) (key_of m))) by (intros; apply andb_comm).
    rewrite <- filter_filter. unfold is_def, sort_of. destruct (def_sort e) as [s|].
    - destruct H as (m' & T' & N' & K' & D' & ->). assert (m' = m) as -> by (eapply module_unique; eauto).
      cbn [filter def_symbol s_region]. now rewrite key_eqb_refl.
    - now rewrite H.
  Qed.
  Lemma module_kids m : InTree tree m -> is_node m = true -> ekind m = MODULE ->
    kids raw (mod_symbol m) = map (fun p => def_symbol m (sort_kind (sort_of (snd p))) p) (enum 0 (definitions m)).
  Proof.
    intros Tm Nm Km. unfold kids.
    rewrite (filter_ext_in' _ (fun x => key_eqb (s_region x) (key_of m) && is_def_kind x)) by (intros x Hx; now apply kid_of_def).
    unfold raw_symbols, BinderFacts.nodes. rewrite filter_flat_map.
    destruct (nodes_split (root_of tree) m Tm Nm) as (pre & post & E & Hpre & Hpost).
    assert (Hall : forall x, In x (pre ++ descendants m ++ post) -> InTree tree x /\ is_node x = true).
    { intros x Hx. rewrite <- E in Hx. now apply in_descendants in Hx. }
    assert (Hout : forall i e, InTree tree e -> is_node e = true -> ~ Desc m e ->
      filter (fun x => key_eqb (s_region x) (key_of m) && is_def_kind x) (node_symbols i e) = []).
    { intros i e Te Ne D. apply filter_none. intros x Hx. apply not_true_iff_false. intros X. apply andb_prop in X as [X1 X2].
      pose proof (node_defs src i e Te Ne) as H.
      assert (Hin : In x (filter is_def_kind (node_symbols i e))) by (apply filter_In; auto).
      destruct (def_sort e) as [s'|]; [|rewrite H in Hin; destruct Hin].
      destruct H as (m' & T' & N' & K' & D' & H). rewrite H in Hin. destruct Hin as [<-|[]].
      cbn in X1. apply key_eqb_eq in X1. assert (m' = m) by (apply (key_inj src); auto). congruence. }
    rewrite E, !number_app, !flat_map_app.
    rewrite (flat_map_nil _ (number 0 pre)), (flat_map_nil _ (number _ post)).
    - cbn [app]. rewrite app_nil_r. set (id0 := last_id 0 pre). clearbody id0.
      destruct (descendants_head m Nm) as (l & El).
      assert (Hl : forall e, In e l -> Desc m e /\ is_node e = true /\ ekind e <> MODULE).
      { intros e He. assert (Hin : In e (descendants m)) by (rewrite El; now right).
        apply in_descendants_of in Hin as [D Ne]. repeat (split; [assumption|]). intros Ke.
        assert (m = e) as <-.
        { eapply (module_unique src e); eauto; [constructor|]. eapply Desc_trans; [exact Tm|exact D]. }
        pose proof (descendants_nodup m) as Hnd. rewrite El in Hnd. inversion Hnd; contradiction. }
      rewrite (flat_map_ext_in _ (fun p => if is_def (snd p) then [def_symbol m (sort_kind (sort_of (snd p))) p] else [])).
      + rewrite (flat_map_if (fun p => is_def (snd p)) (fun p => def_symbol m (sort_kind (sort_of (snd p))) p)).
        unfold definitions. rewrite El. cbn [number filter snd].
        assert (is_def m = false) as -> by (unfold is_def, def_sort; rewrite Km; reflexivity).
        assert (next_id id0 m = 0%N) as -> by (unfold next_id; rewrite Km; reflexivity).
        rewrite <- number_defs by (intros e He; now apply Hl). reflexivity.
      + intros (i & e) He. cbn [fst snd]. apply in_number in He. cbn in He.
        apply in_descendants_of in He as [D Ne]. apply def_node; auto. eapply Desc_trans; eassumption.
    - intros (i & e) He. apply in_number in He. cbn in *. destruct (Hall e) as [Te Ne]; [rewrite !in_app_iff; auto|]. apply Hout; auto.
    - intros (i & e) He. apply in_number in He. cbn in *. destruct (Hall e) as [Te Ne]; [rewrite !in_app_iff; auto|]. apply Hout; auto.
  Qed.

  (** The children of a definition. *)
  Lemma own_locals_slots f : own_locals f = local_slots f /\ own_params f = param_slots f.
  Proof. split; reflexivity. Qed.
  Lemma no_locals d : InTree tree d -> is_def d = true -> kind_eqb (ekind d) MODULE_FIELD_FUNC = false -> childs d LOCAL = [].
  Proof.
    intros Td Df Kf. destruct (childs d LOCAL) as [|c r] eqn:E; [reflexivity|]. exfalso.
    assert (Hc : In c (childs d LOCAL)) by (rewrite E; now left). apply in_childs in Hc as [Hc Kc].
    pose proof (child_kind src d c Td Hc) as H. rewrite Kc in H. unfold is_def, def_sort in Df.
    destruct (ekind d); try discriminate; vm_compute in H; intuition discriminate.
  Qed.
  Lemma def_kids m i d : InTree tree m -> is_node m = true -> ekind m = MODULE -> In (i, d) (enum 0 (definitions m)) ->
    kids raw (def_symbol m (sort_kind (sort_of d)) (i, d)) = map (slot_symbol d SLocal) (numbered_locals d).
  Proof.
    intros T N K Hd. destruct (def_in src m i d T Hd) as (Td & Nd & D & Df). unfold kids. cbn [s_key def_symbol snd].
    destruct (kind_eqb (ekind d) MODULE_FIELD_FUNC) eqn:Kf; [apply kind_eqb_eq in Kf|].
    - rewrite (filter_ext_in' _ (fun x => (key_eqb (s_region x) (key_of d) && is_param_or_local x) && skind_eqb (s_kind x) SLocal)).
      + rewrite <- filter_filter, func_locals by assumption. unfold local_symbols, numbered_locals.
        destruct (own_locals_slots d) as [-> ->].
        rewrite filter_app, (filter_none _ (map (slot_symbol d SParam) _)), (filter_all _ (map (slot_symbol d SLocal) _)); [reflexivity| |];
          intros x Hx; apply in_map_iff in Hx as (p & <- & _); reflexivity.
      + intros x Hx. unfold is_kid. destruct (key_eqb (s_region x) (key_of d)) eqn:E; [|now rewrite andb_false_r].
        rewrite andb_true_r. cbn [andb]. apply key_eqb_eq in E. unfold at_root. rewrite E. cbn [key_of key_kind]. rewrite Kf.
        change (negb (kind_eqb MODULE_FIELD_FUNC ROOT)) with true. rewrite andb_true_r.
        destruct (listed x) eqn:L.
        * symmetry. destruct (listed_cases src x Hx L) as [(m' & T' & _ & Km & E')|[(m' & so & i' & d' & T' & N' & Km & _ & _ & E')|(f & i' & d' & T' & N' & Kf' & _ & E' & Ks)]].
          -- exfalso. rewrite E' in E. cbn in E. assert (X : key_kind (key_of (root_of tree)) = key_kind (key_of d)) by now rewrite E.
             cbn [key_of key_kind] in X. rewrite root_kind, Kf in X. discriminate.
          -- exfalso. rewrite E' in E. cbn in E. exact (module_not_func src m' d T' Td N' Nd Km Kf E).
          -- unfold is_param_or_local. rewrite Ks. reflexivity.
        * symmetry. apply not_true_iff_false. intros X. apply andb_prop in X as [_ X]. apply skind_eqb_eq in X.
          unfold listed in L. rewrite X in L. discriminate.
    - unfold numbered_locals, own_locals.
      rewrite (no_locals d) by assumption.
      cbn [flat_map enum map]. apply filter_none. intros x Hx. apply not_true_iff_false. intros X. unfold is_kid in X.
      apply andb_prop in X as [X Ek]. apply andb_prop in X as [L Rr]. apply key_eqb_eq in Ek.
      assert (X : key_kind (s_region x) = ekind d) by (rewrite Ek; reflexivity).
      destruct (listed_cases src x Hx L) as [(m' & T' & _ & Km & E')|[(m' & so & i' & d' & T' & N' & Km & _ & _ & E')|(f & i' & d' & T' & N' & Kf' & _ & E' & Ks)]];
        rewrite E' in X; cbn in X; rewrite ?root_kind in X; unfold is_def, def_sort in Df; rewrite <- X in Df.
      + discriminate.
      + rewrite Km in Df. discriminate.
      + rewrite <- X, Kf' in Kf. discriminate.
  Qed.

  (** ** Entries *)

  Definition base (s : symbol) : doc_symbol :=
    match doc_entry src s with
    | Ans [(_, d)] => d
    | _ => mk_ds [] KModule ((0, 0), (0, 0)) ((0, 0), (0, 0)) None
    end.
  Lemma base_children s : ds_children (base s) = None.
  Proof.
    unfold base, doc_entry. destruct (is_field_kind (s_kind s)) as [[]|]; [| | |reflexivity].
    - destruct (key_range src (s_key s)); reflexivity.
    - destruct (key_range src (s_key s)) as [r| |]; try reflexivity. cbn [abind]. destruct to_node as [n|]; [|reflexivity]. cbn [amust abind].
      destruct (token n IDENT) as [t|]; [destruct (range_of src t)|]; reflexivity.
    - destruct (key_range src (s_key s)) as [r| |]; try reflexivity. cbn [abind]. destruct to_node as [n|]; [|reflexivity]. cbn [amust abind].
      destruct (token n IDENT) as [t|]; [destruct (range_of src t)|]; reflexivity.
  Qed.
  Lemma entry_ok s d n k : pointable src d -> s_key s = key_of d -> is_field_kind (s_kind s) = Some k -> k <> KModule ->
    i_name (s_idx s) = option_map etext (token d IDENT) -> i_num (s_idx s) = Some n ->
    doc_entry src s = Ans [(s_key s, base s)] /\ Entry src d n k None (base s).
  Proof.
    intros P Ek Kk Kn Hn Hm. unfold base, doc_entry. rewrite Kk.
    destruct (key_range_ok src d) as (r & Er & R); [apply P|]. rewrite Ek, Er. cbn [abind].
    rewrite to_node_ok by apply P. cbn [amust abind].
    assert (Hsel : exists sel, match token d IDENT with Some t => range_of src t | None => Ans r end = Ans sel
              /\ RangeOf src (match token d IDENT with Some t => t | None => d end) sel).
    { destruct (token d IDENT) as [t|] eqn:Et; [|exists r; auto]. apply range_of_ok. eapply token_in_tree; [apply P|exact Et]. }
    destruct Hsel as (sel & Es & S). rewrite Es. cbn [abind].
    assert (Hname : symbol_name s = match token d IDENT with Some t => etext t | None => shown_ref (Numbered n) end).
    { unfold symbol_name. rewrite Hn, Hm. destruct (token d IDENT); reflexivity. }
    destruct k; [congruence| |]; (split; [reflexivity|]); (split; [exact Hname|]); (split; [reflexivity|]);
      (split; [exact R|]); (split; [exact S|reflexivity]).
  Qed.
  Lemma def_entry_ok m i d : InTree tree m -> In (i, d) (enum 0 (definitions m)) ->
    let s := def_symbol m (sort_kind (sort_of d)) (i, d) in
    doc_entry src s = Ans [(s_key s, base s)]
    /\ Entry src d i (if has_sort FuncS d then KFunction else KVariable) None (base s).
  Proof.
    intros T Hd s. destruct (def_in src m i d T Hd) as (Td & Nd & D & Df).
    assert (P : pointable src d).
    { apply (def_pointable src m d T). apply in_enum in Hd as (j & Hj & _). now apply nth_error_In in Hj. }
    apply (entry_ok s d i); try reflexivity; try exact P.
    - unfold s, is_def, sort_of, has_sort in *. cbn. destruct (def_sort d) as [[]|]; [reflexivity..|discriminate].
    - destruct (has_sort FuncS d); discriminate.
  Qed.
  Lemma local_entry_ok f p : InTree tree f -> is_node f = true -> ekind f = MODULE_FIELD_FUNC -> In p (numbered_locals f) ->
    let s := slot_symbol f SLocal p in
    doc_entry src s = Ans [(s_key s, base s)] /\ LocalEntry src p (base s).
  Proof.
    intros T N K Hp s.
    assert (Hl : In (snd p) (locals_space f)).
    { rewrite locals_space_slots. apply in_or_app. right. destruct (own_locals_slots f) as [<- _].
      unfold numbered_locals in Hp. apply in_enum in Hp as (j & Hj & _). now apply nth_error_In in Hj. }
    apply (entry_ok s (snd p) (fst p)); try reflexivity.
    - now apply (slot_pointable src f).
    - discriminate.
    - cbn. destruct (kind_eqb (ekind (snd p)) VAL_TYPE) eqn:Kv; [|reflexivity]. apply kind_eqb_eq in Kv.
      rewrite locals_space_slots in Hl. pose proof (slot_facts src f (snd p) T K Hl) as (H1 & H2 & H3 & H4 & H5).
      rewrite (no_token src (snd p) IDENT); [reflexivity|exact H1|rewrite Kv; discriminate|rewrite Kv; vm_compute; reflexivity|..]; try reflexivity; try discriminate.
  Qed.
  Lemma module_entry_ok m : InTree tree m -> is_node m = true -> ekind m = MODULE ->
    doc_entry src (mod_symbol m) = Ans [(key_of m, base (mod_symbol m))]
    /\ exists r, base (mod_symbol m) = mk_ds (Text.T "module") KModule r r None /\ RangeOf src m r.
  Proof.
    intros T N K. unfold base, doc_entry. cbn [mod_symbol s_kind s_key is_field_kind].
    destruct (key_range_ok src m T) as (r & Er & R). rewrite Er. cbn [abind]. split; [reflexivity|]. exists r. auto.
  Qed.
  Lemma sort_of_has so d : has_sort so d = true -> sort_of d = so.
  Proof. unfold has_sort, sort_of. destruct (def_sort d) as [s|]; [|discriminate]. destruct (sort_eq_dec so s); congruence. Qed.

  Lemma entries_all : map_ans (doc_entry src) raw
    = Ans (map (fun s => if listed s then [(s_key s, base s)] else []) raw).
  Proof.
    apply map_ans_Forall2. assert (H : forall s, In s raw -> doc_entry src s = Ans (if listed s then [(s_key s, base s)] else [])).
    { intros s Hs. destruct (listed s) eqn:L; [|unfold doc_entry, listed in *; destruct (is_field_kind (s_kind s)); [discriminate|reflexivity]].
      destruct (listed_cases src s Hs L) as [(m & T & N & Km & ->)|[(m & so & i & d & T & N & Km & Hd & So & ->)|(f & i & d & T & N & Kf & Hd & E & Ks)]].
      - now apply module_entry_ok.
      - rewrite <- (sort_of_has so d So). now apply def_entry_ok.
      - rewrite E in Ks |- *. cbn in Ks. unfold local_symbol. cbn [fst]. rewrite Ks.
        apply local_entry_ok; auto. unfold numbered_locals. destruct (own_locals_slots f) as [-> ->].
        rewrite locals_space_slots, enum_app in Hd. apply in_app_or in Hd as [Hd|Hd]; [|now rewrite N.add_0_l in Hd].
        exfalso. apply in_enum in Hd as (j & Hj & Ej). cbn in Hj, Ej. unfold slot_kind in Ks.
        assert (j < length (param_slots f)) by (apply nth_error_Some; congruence).
        destruct (N.ltb_spec i (N.of_nat (length (param_slots f)))); [discriminate|lia]. }
    revert H. generalize raw. intros l H. induction l as [|s l IH]; cbn [map]; constructor.
    - apply H. now left.
    - apply IH. intros x Hx. apply H. now right.
  Qed.

  (** The modules. *)
  Lemma module_roots (P : symbol -> bool) :
    filter (fun s => listed s && at_root s && P s) raw
    = map mod_symbol (filter (fun m => kind_eqb (ekind m) MODULE && P (mod_symbol m)) (descendants (root_of tree))).
  Proof.
    unfold raw_symbols. rewrite filter_flat_map.
    rewrite (flat_map_ext_in _ (fun p => if kind_eqb (ekind (snd p)) MODULE && P (mod_symbol (snd p)) then [mod_symbol (snd p)] else [])).
    - rewrite (flat_map_if (fun p => kind_eqb (ekind (snd p)) MODULE && P (mod_symbol (snd p))) (fun p => mod_symbol (snd p))).
      rewrite <- (number_snd 0 (descendants (root_of tree))). fold nodes.
      rewrite filter_map, !map_map. reflexivity.
    - intros (i & e) He. cbn [fst snd]. destruct (nodes_in _ _ _ He) as [T N].
      destruct (kind_eqb (ekind e) MODULE) eqn:K.
      + apply kind_eqb_eq in K. unfold node_symbols. rewrite K, (module_parent src e) by assumption.
        fold (mod_symbol e). cbn [filter andb]. unfold listed at 1, at_root at 1. cbn [mod_symbol s_kind s_region key_of key_kind is_field_kind].
        rewrite root_kind. reflexivity.
      + cbn [andb]. apply filter_none. intros x Hx. apply not_true_iff_false. intros X. apply andb_prop in X as [X _].
        apply andb_prop in X as [L R].
        assert (Hr : In x raw) by (apply raw_in; eauto).
        unfold at_root in R. apply kind_eqb_eq in R.
        destruct (listed_cases src x Hr L) as [(m & Tm & Nm & Km & E)|[(m & so & j & d & Tm & Nm & Km & Hd & So & E)|(f & j & d & Tf & Nf & Kf & Hd & E & Ks)]].
        * destruct (raw_node src _ _ _ He Hx) as (n & Tn & Nn & O & En). rewrite E in En. cbn in En.
          assert (m = n) as <- by (apply (key_inj src); auto). unfold owner in O. rewrite Km in O. injection O as <-.
          rewrite Km in K. discriminate.
        * rewrite E in R. cbn in R. congruence.
        * rewrite E in R. cbn in R. congruence.
  Qed.
End Conn.

Lemma set_kids_entry src d n k kids ds : Entry src d n k None ds -> Entry src d n k (match kids with [] => None | _ => Some kids end) (set_kids ds kids).
Proof. intros (A & B & C & D & E). destruct kids; repeat split; cbn; auto; try apply C; try apply D. Qed.
Lemma Forall2_map_r {A B} (R : A -> B -> Prop) f l : (forall x, In x l -> R x (f x)) -> Forall2 R l (map f l).
Proof.
  induction l as [|x l IH]; intros H; cbn; constructor; [apply H; now left|]. apply IH. intros y Hy. apply H. now right.
Qed.

(** ** C26 *)

(** For every document, the answer is one entry for every module that defines
    anything, with one child for every definition, each with one child for
    every local.  (The order of the modules is not specified by the code.) *)
Theorem C26_exact src :
  exists rs, document_symbol src = Ans rs
    /\ exists rs', Permutation rs rs' /\ Forall2 (ModuleEntry src) (full_modules src) rs'.
Proof.
  unfold document_symbol. rewrite symbols_spec. cbn [abind the_table symbols]. rewrite entries_all. cbn [abind].
  eexists. split; [reflexivity|]. eexists. split; [apply Permutation_refl|].
  set (raw := raw_symbols (nodes src)).
  replace (concat (map (fun s => if listed s then [(s_key s, base src s)] else []) raw))
    with (map (fun s => (s_key s, base src s)) (filter listed raw)).
  2:{ rewrite <- flat_map_concat_map. symmetry. apply (flat_map_if listed (fun s => (s_key s, base src s))). }
  change (fun s : symbol => negb (kind_eqb (key_kind (s_region s)) ROOT)) with (fun s => negb (at_root s)).
  rewrite forest.
  - pose proof (module_roots src (fun s => match kids raw s with [] => false | _ => true end)) as MR. fold raw in MR. rewrite MR. clear MR.
    rewrite map_map. unfold full_modules.
    assert (E : filter (fun m => kind_eqb (ekind m) MODULE && match kids raw (mod_symbol src m) with [] => false | _ => true end)
              (descendants (root_of (tree_of src)))
            = filter (fun m => kind_eqb (ekind m) MODULE && match definitions m with [] => false | _ => true end)
              (descendants (root_of (tree_of src)))).
    { apply filter_ext_in'. intros m Hm. apply in_descendants in Hm as [T N]. destruct (kind_eqb (ekind m) MODULE) eqn:K; [|reflexivity].
      apply kind_eqb_eq in K. cbn [andb]. unfold raw. rewrite module_kids by assumption. now destruct (definitions m). }
    rewrite E. apply Forall2_map_r. intros m Hm. apply filter_In in Hm as [Hm Kd]. apply in_descendants in Hm as [T N].
    apply andb_prop in Kd as [K Hne]. apply kind_eqb_eq in K.
    destruct (module_entry_ok src m T N K) as (_ & r & Eb & R). rewrite Eb. unfold raw. rewrite module_kids by assumption. fold raw.
    rewrite map_map. unfold ModuleEntry, Kids.
    assert (Hk : Forall2 (DefEntry src) (enum 0 (definitions m))
       (map (fun p => final raw (base src) (def_symbol m (sort_kind (sort_of (snd p))) p)) (enum 0 (definitions m)))).
    { apply Forall2_map_r. intros (i & d) Hd. cbn [snd]. unfold final, raw. rewrite def_kids by assumption. fold raw.
      rewrite map_map. destruct (def_entry_ok src m i d T Hd) as [_ En]. destruct (def_in src m i d T Hd) as (Td & Nd & D & Df).
      eexists. split; [|apply set_kids_entry; exact En]. cbn [snd].
      destruct (numbered_locals d) as [|p ps] eqn:El; [reflexivity|]. eexists. split; [reflexivity|]. rewrite <- El.
      apply Forall2_map_r. intros q Hq.
      destruct (kind_eqb (ekind d) MODULE_FIELD_FUNC) eqn:Kf.
      - apply kind_eqb_eq in Kf. now apply (local_entry_ok src d q).
      - exfalso. unfold numbered_locals, own_locals in El. rewrite (no_locals src d) in El by assumption. discriminate. }
    destruct (definitions m) as [|d ds] eqn:Ed; [discriminate|]. cbn [enum map] in Hk |- *.
    cbn [set_kids ds_name ds_kind ds_range ds_selection ds_children]. repeat (split; [try reflexivity; exact R|]).
    eexists. split; [reflexivity|exact Hk].
  - unfold raw. pose proof (raw_nodup src) as Hn. pose proof (raw_key_inj src) as Hi. revert Hn Hi.
    generalize (raw_symbols (nodes src)). intros l. induction l as [|x l IH]; intros Hn Hi; cbn; [constructor|].
    inversion Hn; subst. constructor.
    + intros X. apply in_map_iff in X as (y & Ey & Hy). assert (y = x) by (apply Hi; [now right|now left|exact Ey]). now subst.
    + apply IH; [assumption|]. intros a b Ha Hb. apply Hi; now right.
  - apply base_children.
  - apply kid_before_not.
  - apply kid_self_not.
  - apply kid_depth.
Qed.
Print Assumptions C26_exact.

(** Every entry encloses its selection and its children. *)
Inductive Nested : doc_symbol -> Prop :=
| Nested_ds d : encloses (ds_range d) (ds_selection d) ->
    (forall l c, ds_children d = Some l -> In c l -> encloses (ds_range d) (ds_range c) /\ Nested c) -> Nested d.

Lemma encloses_desc src a b r r' : Desc a b -> RangeOf src a r -> RangeOf src b r' -> encloses r r'.
Proof.
  intros D [A B] [A' B']. apply Desc_range in D. unfold encloses.
  split; [eapply (line_col_le src (estart a) (estart b))|eapply (line_col_le src (eend b) (eend a))]; eauto; lia.
Qed.
Lemma Forall2_in_r {A B} (R : A -> B -> Prop) l l' y : Forall2 R l l' -> In y l' -> exists x, In x l /\ R x y.
Proof.
  induction 1 as [|a b l l' H F IH]; intros []; [subst; exists a; split; [now left|exact H]|].
  destruct IH as (x & Hx & Hr); [assumption|]. exists x. split; [now right|exact Hr].
Qed.
Lemma entry_selection src d n k kids ds : Entry src d n k kids ds -> encloses (ds_range ds) (ds_selection ds).
Proof.
  intros (_ & _ & R & S & _). eapply encloses_desc; [|exact R|exact S].
  destruct (token d IDENT) as [t|] eqn:E; [|constructor]. apply token_some in E as (E & _).
  exact (Desc_step _ _ _ (Desc_refl d) E).
Qed.
Theorem C26_nested src rs :
  document_symbol src = Ans rs -> Forall Nested rs.
Proof.
  intros H. destruct (C26_exact src) as (rs' & E & rs2 & P & F). rewrite H in E. injection E as <-.
  apply Forall_forall. intros ds Hd. apply (Permutation_in _ P) in Hd. clear P.
  destruct (Forall2_in_r _ _ _ _ F Hd) as (m & Hm & (_ & _ & R & S & K)). constructor.
  - rewrite S. eapply encloses_desc; [constructor|exact R|exact R].
  - intros l c El Hc. rewrite El in K. unfold Kids in K.
    destruct (enum 0 (definitions m)) as [|p ps] eqn:Ee; [discriminate|]. destruct K as (l' & E' & G). injection E' as <-.
    rewrite <- Ee in G. destruct (Forall2_in_r _ _ _ _ G Hc) as ((i & d) & Hi & (kids & Kk & En)).
    assert (D : Desc m d).
    { apply in_enum in Hi as (j & Hj & _). cbn in Hj. apply nth_error_In in Hj. apply filter_In in Hj as [Hj _].
      now apply in_descendants_of in Hj. }
    assert (Rc : RangeOf src d (ds_range c)) by apply En.
    split; [eapply encloses_desc; eauto|]. constructor; [eapply entry_selection; exact En|].
    intros l2 c2 El2 Hc2. assert (kids = Some l2) by (destruct En as (_ & _ & _ & _ & En); congruence). subst kids.
    unfold Kids in Kk. cbn [snd] in Kk. destruct (numbered_locals d) as [|q qs] eqn:Eq; [discriminate|].
    destruct Kk as (l3 & E3 & G3). injection E3 as <-. rewrite <- Eq in G3.
    destruct (Forall2_in_r _ _ _ _ G3 Hc2) as ((j & x) & Hj & En2). cbn [fst snd] in *. unfold LocalEntry in En2. cbn [fst snd] in En2.
    assert (Dx : Desc d x).
    { unfold numbered_locals in Hj. apply in_enum in Hj as (z & Hz & _). cbn in Hz. apply nth_error_In in Hz.
      unfold own_locals in Hz. apply in_flat_map in Hz as (lc & Hl & Hx). apply in_childs in Hl as [Hl _].
      assert (D1 : Desc d lc) by (apply (Desc_step _ _ _ (Desc_refl d)); now apply in_children in Hl).
      unfold entries in Hx. destruct (token lc IDENT); [destruct Hx as [<-|[]]; exact D1|].
      apply in_childs in Hx as [Hx _]. apply (Desc_step _ _ _ D1). now apply in_children in Hx. }
    split; [eapply encloses_desc; [exact Dx|exact Rc|apply En2]|].
    constructor; [eapply entry_selection; exact En2|]. intros l4 c4 E4. destruct En2 as (_ & _ & _ & _ & En2). congruence.
Qed.
Print Assumptions C26_nested.

(** A concrete case, with an empty module that is left out. *)
Definition ex_symbols : text :=
  Text.T "(module (func $f (param i32) (local $x i64) (local f32)) (global i32 (i32.const 0))) (module)".
Fixpoint outline (n : nat) (d : doc_symbol) : list (nat * text * lsp_kind * range) :=
  match d with mk_ds x k r _ c => (n, x, k, r) :: match c with Some l => flat_map (outline (S n)) l | None => [] end end.
Example C26_example :
  match document_symbol ex_symbols with Ans rs => flat_map (outline 0) rs | _ => [] end
  = [(0, Text.T "module", KModule, ((0, 0), (0, 84)));
     (1, Text.T "$f", KFunction, ((0, 8), (0, 56)));
     (2, Text.T "$x", KVariable, ((0, 29), (0, 43)));
     (2, Text.T "2", KVariable, ((0, 51), (0, 54)));
     (1, Text.T "1", KVariable, ((0, 57), (0, 83)))]
  /\ length (full_modules ex_symbols) = 1.
Proof. split; vm_compute; reflexivity. Qed.
