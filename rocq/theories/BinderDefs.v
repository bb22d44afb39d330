(** The definitions and references of the symbol table, in terms of the tree. *)

From Coq Require Import String List NArith Bool Arith Lia.
From Verif Require Import Text Kind Green SpecParser Lexer LexerFacts Winnow Grammar Sem Lossless Total
  Bounds Lang TokForm Shape Red Unique Cursor Doc Ast Binder Preorder SpecBinder BinderFacts.
Import ListNotations.

Lemma skind_eqb_refl k : skind_eqb k k = true.
Proof. now apply skind_eqb_eq. Qed.

(** Kinds of the symbols made by each helper. *)
Lemma parent_based_kind e i k s : In s (parent_based e i k) -> s_kind s = k.
Proof. unfold parent_based. destruct parent; [|intros []]. intros [<-|[]]. reflexivity. Qed.
Lemma ref_symbol_kind r k n s : In s (ref_symbol r k n) -> s_kind s = k.
Proof. intros H. apply in_ref_symbol in H as (i & _ & ->). reflexivity. Qed.
Lemma refs_in_kind ks e k s : In s (refs_in ks e k) -> s_kind s = k.
Proof.
  unfold refs_in. destruct enclosing; [|intros []]. intros H. apply in_flat_map in H as (n & _ & H).
  now apply ref_symbol_kind in H.
Qed.
Lemma index_ref_kind e k s : In s (index_ref e k) -> s_kind s = k.
Proof.
  unfold index_ref. destruct enclosing; [|intros []]. destruct child; [|intros []]. apply ref_symbol_kind.
Qed.
Lemma number_slots_kind r k i l s : In s (number_slots r k i l) -> s_kind s = k.
Proof. intros H. apply in_number_slots in H as (d & j & _ & ->). reflexivity. Qed.
Lemma instr_symbols_kind e s : In s (instr_symbols e) ->
  In (s_kind s) [SCall; SLocalRef; SGlobalRef; SBlockRef; STableRef].
Proof.
  unfold instr_symbols. destruct instr_name_of as [t|]; [|intros []].
  destruct (name_in t call_names); [intros H; apply refs_in_kind in H; rewrite H; cbn; auto|].
  destruct (name_in t local_names); [intros H; apply refs_in_kind in H; rewrite H; cbn; auto|].
  destruct (name_in t global_names); [intros H; apply refs_in_kind in H; rewrite H; cbn; auto|].
  destruct (name_in t br_names); [intros H; apply refs_in_kind in H; rewrite H; cbn; auto|].
  destruct (name_in t table_names); [intros H; apply refs_in_kind in H; rewrite H; cbn; auto 6|].
  destruct (name_in t ["table.init"%string]); [|intros []].
  destruct enclosing; [|intros []]. destruct children; [intros []|]. intros H.
  apply ref_symbol_kind in H. rewrite H. cbn. auto 6.
Qed.

Section Doc.
  Variable src : text.
  Notation tree := (tree_of src).
  Notation nodes := (nodes src).

  (** ** Definitions *)

  Lemma def_parent e k : InTree tree e -> is_node e = true -> parents_of (ekind e) = [k] ->
    exists p, parent e = Some p /\ ekind p = k /\ InTree tree p /\ is_node p = true /\ Desc p e.
  Proof.
    intros H Hn K. destruct (parent_ex _ _ H Hn) as [E|(p & Hp & Np & Hc & Pp)].
    - exfalso. subst e. rewrite (root_kind src) in K. vm_compute in K. discriminate.
    - exists p. pose proof (parent_kind _ _ _ Hp Hc) as P. rewrite K in P. destruct P as [P|[]].
      repeat (split; [auto|]). now apply Desc_children.
  Qed.

  Lemma node_defs id e : InTree tree e -> is_node e = true ->
    match def_sort e with
    | Some s => exists m, InTree tree m /\ is_node m = true /\ ekind m = MODULE /\ Desc m e
                  /\ filter is_def_kind (node_symbols id e) = [def_symbol m (sort_kind s) (id, e)]
    | None => filter is_def_kind (node_symbols id e) = []
    end.
  Proof.
    intros He Hn.
    assert (Hk : forall l, (forall s, In s l -> In (s_kind s) [SParam; SLocal; SModule; SBlockDef; SCall; SLocalRef; STypeUse; SGlobalRef; SMemoryRef; STableRef; SBlockRef]) ->
              filter is_def_kind l = []).
    { intros l Hl. apply filter_none. intros s Hs. apply Hl in Hs. unfold is_def_kind.
      cbn [In] in Hs. repeat (destruct Hs as [Hs|Hs]; [rewrite <- Hs; reflexivity|]). destruct Hs. }
    assert (Hpb : forall s k, parents_of (ekind e) = [MODULE] -> existsb (skind_eqb k) [SFunc; SType; SGlobalDef; SMemoryDef; STableDef] = true ->
       k = sort_kind s ->
       exists m, InTree tree m /\ is_node m = true /\ ekind m = MODULE /\ Desc m e
                  /\ filter is_def_kind (parent_based e id k) = [def_symbol m (sort_kind s) (id, e)]).
    { intros s k Hp Hd ->. destruct (def_parent _ _ He Hn Hp) as (p & P1 & P2 & P3 & P4 & P5).
      exists p. repeat (split; [assumption|]). unfold parent_based. rewrite P1. cbn [filter].
      unfold is_def_kind at 1. cbn [s_kind]. rewrite Hd. reflexivity. }
    assert (Hib : forall s k, parents_of (ekind e) = [MODULE_FIELD_IMPORT] -> existsb (skind_eqb k) [SFunc; SType; SGlobalDef; SMemoryDef; STableDef] = true ->
       k = sort_kind s ->
       exists m, InTree tree m /\ is_node m = true /\ ekind m = MODULE /\ Desc m e
                  /\ filter is_def_kind (import_desc_based e id k) = [def_symbol m (sort_kind s) (id, e)]).
    { intros s k Hp Hd ->. destruct (def_parent _ _ He Hn Hp) as (p & P1 & P2 & P3 & P4 & P5).
      destruct (def_parent p MODULE P3 P4) as (m & M1 & M2 & M3 & M4 & M5); [rewrite P2; reflexivity|].
      exists m. repeat (split; [assumption|]). split; [eapply Desc_trans; eassumption|].
      unfold import_desc_based. rewrite P1, M1. cbn [filter].
      unfold is_def_kind at 1. cbn [s_kind]. rewrite Hd. reflexivity. }
    assert (Hix : forall k, In k [SCall; STypeUse; SMemoryRef; STableRef] -> filter is_def_kind (index_ref e k) = []).
    { intros k Hin. apply Hk. intros s Hs. apply index_ref_kind in Hs. rewrite Hs.
      cbn in Hin. repeat (destruct Hin as [<-|Hin]; [cbn; tauto|]). destruct Hin. }
    unfold def_sort, node_symbols. destruct (ekind e) eqn:K; try reflexivity;
      try (apply Hpb; reflexivity); try (apply Hib; reflexivity); try (apply Hix; cbn; tauto).
    - apply Hk. intros s Hs. apply instr_symbols_kind in Hs. cbn in *. tauto.
    - apply Hk. intros s Hs. apply parent_based_kind in Hs. rewrite Hs. cbn. tauto.
    - apply Hk. intros s Hs. apply parent_based_kind in Hs. rewrite Hs. cbn. tauto.
    - apply Hk. intros s Hs. apply parent_based_kind in Hs. rewrite Hs. cbn. tauto.
    - apply Hk. intros s Hs. destruct parent; [|destruct Hs]. destruct Hs as [<-|[]]. cbn. tauto.
    - rewrite !filter_app.
      rewrite (Hk (number_slots (key_of e) SParam _ _)) by (intros s Hs; apply number_slots_kind in Hs; rewrite Hs; cbn; tauto).
      rewrite (Hk (number_slots (key_of e) SLocal _ _)) by (intros s Hs; apply number_slots_kind in Hs; rewrite Hs; cbn; tauto).
      rewrite !app_nil_r. apply Hpb; reflexivity.
  Qed.

  Lemma sort_kind_inj s s' : sort_kind s = sort_kind s' -> s = s'.
  Proof. destruct s, s'; cbn; congruence. Qed.
  Lemma sort_kind_def s k : skind_eqb (s_kind k) (sort_kind s) = true -> is_def_kind k = true.
  Proof. intros E. apply skind_eqb_eq in E. unfold is_def_kind. rewrite E. destruct s; reflexivity. Qed.

  Definition in_region (m : elem) (s : sort) (x : symbol) : bool :=
    key_eqb (s_region x) (key_of m) && skind_eqb (s_kind x) (sort_kind s).

  Lemma region_out m s id e : InTree tree m -> is_node m = true -> InTree tree e -> is_node e = true ->
    ~ Desc m e -> filter (in_region m s) (node_symbols id e) = [].
  Proof.
    intros Tm Nm Te Ne Hd. pose proof (node_defs id e Te Ne) as H.
    apply filter_none. intros x Hx. apply not_true_iff_false. intros E. unfold in_region in E.
    apply andb_prop in E as [E1 E2]. apply sort_kind_def in E2 as E3.
    assert (Hin : In x (filter is_def_kind (node_symbols id e))) by (apply filter_In; auto).
    destruct (def_sort e) as [s'|]; [|rewrite H in Hin; destruct Hin].
    destruct H as (m' & T' & N' & K' & D' & H). rewrite H in Hin. destruct Hin as [<-|[]].
    cbn in E1. apply key_eqb_eq in E1. assert (m' = m) by (apply (key_inj src); auto). congruence.
  Qed.
  Lemma region_in m s id e : InTree tree m -> is_node m = true -> ekind m = MODULE -> InTree tree e -> is_node e = true ->
    Desc m e -> filter (in_region m s) (node_symbols id e)
                = if has_sort s e then [def_symbol m (sort_kind s) (id, e)] else [].
  Proof.
    intros Tm Nm Km Te Ne Hd. pose proof (node_defs id e Te Ne) as H.
    assert (E : filter (in_region m s) (node_symbols id e)
                = filter (in_region m s) (filter is_def_kind (node_symbols id e))).
    { rewrite filter_filter. apply filter_ext_in'. intros x _.
      destruct (in_region m s x) eqn:E; [|now rewrite andb_false_r].
      unfold in_region in E. apply andb_prop in E as [_ E]. apply sort_kind_def in E. now rewrite E. }
    rewrite E. unfold has_sort. destruct (def_sort e) as [s'|].
    - destruct H as (m' & T' & N' & K' & D' & H). rewrite H.
      assert (m' = m) as -> by (eapply module_unique; eauto).
      cbn [filter]. unfold in_region. cbn. rewrite key_eqb_refl. cbn.
      destruct (sort_eq_dec s s') as [->|Hs].
      + now rewrite skind_eqb_refl.
      + assert (skind_eqb (sort_kind s') (sort_kind s) = false) as ->; [|reflexivity].
        apply not_true_iff_false. intros X. apply skind_eqb_eq, sort_kind_inj in X. congruence.
    - now rewrite H.
  Qed.

  (** Numbering inside a module. *)
  Lemma number_defs l : forall id, (forall e, In e l -> ekind e <> MODULE) ->
    filter (fun p => is_def (snd p)) (number id l) = enum id (filter is_def l).
  Proof.
    induction l as [|e l IH]; intros id H; cbn [number filter enum]; [reflexivity|]. cbn [snd].
    assert (He : ekind e <> MODULE) by (apply H; now left).
    destruct (is_def e) eqn:D; unfold is_def, def_sort in D; unfold next_id;
      (destruct (ekind e) eqn:K; try discriminate D; try (now destruct He);
       try (rewrite IH by (intros; apply H; now right)); reflexivity).
  Qed.

  Lemma flat_map_nil {A B} (f : A -> list B) l : (forall x, In x l -> f x = []) -> flat_map f l = [].
  Proof.
    induction l as [|x l IH]; intros H; cbn; [reflexivity|]. rewrite (H x) by now left. apply IH.
    intros y Hy. apply H. now right.
  Qed.
  Lemma flat_map_if {A B} (c : A -> bool) (f : A -> B) l :
    flat_map (fun x => if c x then [f x] else []) l = map f (filter c l).
  Proof. induction l as [|x l IH]; cbn; [reflexivity|]. destruct (c x); cbn; now rewrite IH. Qed.
  Lemma has_sort_def s d : has_sort s d = true -> is_def d = true.
  Proof. unfold has_sort, is_def. destruct def_sort; [reflexivity|discriminate]. Qed.

  Lemma module_defs m s : InTree tree m -> is_node m = true -> ekind m = MODULE ->
    filter (in_region m s) (raw_symbols nodes)
    = map (def_symbol m (sort_kind s)) (filter (fun p => has_sort s (snd p)) (enum 0 (definitions m))).
  Proof.
    intros Tm Nm Km. unfold nodes, raw_symbols. rewrite filter_flat_map.
    destruct (nodes_split (root_of tree) m Tm Nm) as (pre & post & E & Hpre & Hpost).
    assert (Hall : forall x, In x (pre ++ descendants m ++ post) -> InTree tree x /\ is_node x = true).
    { intros x Hx. rewrite <- E in Hx. now apply in_descendants in Hx. }
    rewrite E, !number_app, !flat_map_app.
    rewrite (flat_map_nil _ (number 0 pre)), (flat_map_nil _ (number _ post)).
    - cbn [app]. rewrite app_nil_r.
      set (id0 := last_id 0 pre). clearbody id0.
      destruct (descendants_head m Nm) as (l & El).
      assert (Hl : forall e, In e l -> Desc m e /\ is_node e = true /\ ekind e <> MODULE).
      { intros e He. assert (Hin : In e (descendants m)) by (rewrite El; now right).
        apply in_descendants_of in Hin as [D Ne]. repeat (split; [assumption|]). intros Ke.
        assert (m = e) as <-.
        { eapply (module_unique src e); eauto; [constructor|].
          eapply Desc_trans; [exact Tm|exact D]. }
        pose proof (descendants_nodup m) as Hnd. rewrite El in Hnd. inversion Hnd; contradiction. }
      rewrite (flat_map_ext_in _ (fun p => if has_sort s (snd p) then [def_symbol m (sort_kind s) p] else [])).
      + rewrite flat_map_if. unfold definitions. rewrite El. cbn [number filter snd].
        assert (has_sort s m = false) as -> by (unfold has_sort, def_sort; rewrite Km; reflexivity).
        assert (is_def m = false) as -> by (unfold is_def, def_sort; rewrite Km; reflexivity).
        assert (next_id id0 m = 0%N) as -> by (unfold next_id; rewrite Km; reflexivity).
        rewrite <- number_defs by (intros e He; now apply Hl). rewrite filter_filter. f_equal.
        apply filter_ext_in'. intros p _. destruct (has_sort s (snd p)) eqn:Hs; [|now rewrite andb_false_r].
        apply has_sort_def in Hs. now rewrite Hs.
      + intros (i & e) He. cbn [fst snd]. apply in_number in He. cbn in He.
        apply in_descendants_of in He as [D Ne].
        apply region_in; auto. eapply Desc_trans; eassumption.
    - intros (i & e) He. apply in_number in He. cbn in *. destruct (Hall e) as [Te Ne]; [rewrite !in_app_iff; auto|].
      apply region_out; auto.
    - intros (i & e) He. apply in_number in He. cbn in *. destruct (Hall e) as [Te Ne]; [rewrite !in_app_iff; auto|].
      apply region_out; auto.
  Qed.

  (** ** Parameters and locals *)

  Lemma locals_out f id e : InTree tree f -> is_node f = true -> InTree tree e -> is_node e = true -> e <> f ->
    filter (fun x => key_eqb (s_region x) (key_of f) && is_param_or_local x) (node_symbols id e) = [].
  Proof.
    intros Tf Nf Te Ne Hne. apply filter_none. intros x Hx. apply not_true_iff_false. intros E.
    apply andb_prop in E as [E1 E2]. apply key_eqb_eq in E1.
    assert (Hk : forall l, (forall s, In s l -> In (s_kind s) [SFunc; SType; SGlobalDef; SMemoryDef; STableDef; SModule; SBlockDef; SCall; SLocalRef; STypeUse; SGlobalRef; SMemoryRef; STableRef; SBlockRef]) ->
              ~ In x l).
    { intros l Hl Hin. apply Hl in Hin. unfold is_param_or_local in E2.
      cbn [In] in Hin. repeat (destruct Hin as [Hin|Hin]; [rewrite <- Hin in E2; discriminate|]). destruct Hin. }
    unfold node_symbols in Hx. destruct (ekind e) eqn:K; try destruct Hx;
      try (revert Hx; apply Hk; intros s Hs; apply index_ref_kind in Hs; rewrite Hs; cbn; tauto);
      try (revert Hx; apply Hk; intros s Hs; apply parent_based_kind in Hs; rewrite Hs; cbn; tauto);
      try (revert Hx; apply Hk; intros s Hs; unfold import_desc_based in Hs; destruct (parent e) as [p|]; [|destruct Hs];
           destruct (parent p); [|destruct Hs]; destruct Hs as [<-|[]]; cbn; tauto).
    - revert Hx. apply Hk. intros s Hs. apply instr_symbols_kind in Hs. cbn in *. tauto.
    - revert Hx. apply Hk. intros s Hs. destruct parent; [|destruct Hs]. destruct Hs as [<-|[]]. cbn. tauto.
    - apply in_app_or in Hx as [Hx|Hx].
      + revert Hx. apply Hk. intros s Hs. apply parent_based_kind in Hs. rewrite Hs. cbn. tauto.
      + apply in_app_or in Hx as [Hx|Hx]; apply in_number_slots in Hx as (d & j & _ & ->); cbn in E1;
          apply Hne; apply (key_inj src); auto.
  Qed.

  (** The symbols of a list of slots. *)
  Definition slot_symbol (f : elem) (k : skind) (p : N * elem) : symbol :=
    mk_symbol (key_of (snd p)) (el (snd p)) (key_of f) k
      (mk_idx (Some (fst p)) (if kind_eqb (ekind (snd p)) VAL_TYPE then None else ident_of (snd p))).
  Lemma number_slots_enum f k l : forall i, number_slots (key_of f) k i l = map (slot_symbol f k) (enum i l).
  Proof. induction l as [|d l IH]; intros i; cbn; [reflexivity|]. f_equal. apply IH. Qed.

  Definition local_symbols (f : elem) : list symbol :=
    map (slot_symbol f SParam) (enum 0 (param_slots f))
    ++ map (slot_symbol f SLocal) (enum (N.of_nat (length (param_slots f))) (local_slots f)).

  Lemma flat_map_one {A B} (f : A -> list B) l1 x l2 :
    (forall y, In y l1 -> f y = []) -> (forall y, In y l2 -> f y = []) -> flat_map f (l1 ++ x :: l2) = f x.
  Proof.
    intros H1 H2. rewrite flat_map_app. cbn. rewrite (flat_map_nil f l1), (flat_map_nil f l2) by assumption.
    now rewrite app_nil_r.
  Qed.

  Lemma func_locals f : InTree tree f -> is_node f = true -> ekind f = MODULE_FIELD_FUNC ->
    filter (fun x => key_eqb (s_region x) (key_of f) && is_param_or_local x) (raw_symbols nodes) = local_symbols f.
  Proof.
    intros Tf Nf Kf. destruct (nodes_ex src f Tf Nf) as (id & Hid).
    unfold raw_symbols. rewrite filter_flat_map.
    apply in_split in Hid as (l1 & l2 & E).
    assert (Hout : forall y, In y l1 \/ In y l2 -> InTree tree (snd y) /\ is_node (snd y) = true /\ snd y <> f).
    { intros (i & e) Hy. cbn [snd].
      assert (Hin : In (i, e) nodes) by (rewrite E; apply in_or_app; cbn; tauto).
      destruct (nodes_in _ _ _ Hin) as [A B]. repeat (split; [assumption|]). intros ->.
      assert (Hnd : NoDup (map snd nodes)) by (unfold BinderFacts.nodes; rewrite number_snd; apply descendants_nodup).
      rewrite E, map_app in Hnd. cbn in Hnd. apply NoDup_remove_2 in Hnd. apply Hnd. apply in_or_app.
      destruct Hy as [Hy|Hy]; [left|right]; apply in_map_iff; eexists; (split; [|exact Hy]); reflexivity. }
    rewrite E, flat_map_one.
    - cbn [fst snd]. unfold node_symbols. rewrite Kf, !filter_app, !number_slots_enum. unfold local_symbols.
      rewrite (filter_none _ (parent_based f id SFunc)).
      2:{ intros s Hs. apply parent_based_kind in Hs. unfold is_param_or_local. rewrite Hs. apply andb_false_r. }
      cbn [app]. f_equal; apply filter_all; intros s Hs; apply in_map_iff in Hs as (p & <- & _); cbn; now rewrite key_eqb_refl.
    - intros y Hy. destruct (Hout y (or_introl Hy)) as (A & B & C). apply locals_out; auto.
    - intros y Hy. destruct (Hout y (or_intror Hy)) as (A & B & C). apply locals_out; auto.
  Qed.

  (** ** References *)

  Definition enclosing_of (a : asked) (n : elem) : option elem :=
    match a with
    | AModule _ => enclosing [MODULE] n
    | ALocal => enclosing [MODULE_FIELD_FUNC] n
    | ALabel => enclosing block_kinds n
    end.

  Lemma instr_name_token p t : instr_name_of p = Some t <-> exists k, token p INSTR_NAME = Some k /\ t = etext k.
  Proof.
    unfold instr_name_of. destruct (token p INSTR_NAME) as [k|]; cbn; split.
    - intros E. injection E as <-. eauto.
    - intros (k' & E & ->). injection E as <-. reflexivity.
    - discriminate.
    - intros (k' & E & _). discriminate.
  Qed.

  Lemma names_disjoint t :
    (name_in t call_names = true -> name_in t local_names = false /\ name_in t global_names = false
       /\ name_in t br_names = false /\ name_in t table_names = false /\ name_in t ["table.init"%string] = false)
    /\ (name_in t local_names = true -> name_in t call_names = false /\ name_in t global_names = false
       /\ name_in t br_names = false /\ name_in t table_names = false /\ name_in t ["table.init"%string] = false)
    /\ (name_in t global_names = true -> name_in t call_names = false /\ name_in t local_names = false
       /\ name_in t br_names = false /\ name_in t table_names = false /\ name_in t ["table.init"%string] = false)
    /\ (name_in t br_names = true -> name_in t call_names = false /\ name_in t local_names = false
       /\ name_in t global_names = false /\ name_in t table_names = false /\ name_in t ["table.init"%string] = false)
    /\ (name_in t table_names = true -> name_in t call_names = false /\ name_in t local_names = false
       /\ name_in t global_names = false /\ name_in t br_names = false /\ name_in t ["table.init"%string] = false)
    /\ (name_in t ["table.init"%string] = true -> name_in t call_names = false /\ name_in t local_names = false
       /\ name_in t global_names = false /\ name_in t br_names = false /\ name_in t table_names = false).
  Proof.
    repeat split; apply name_in_iff, in_map_iff in H as (x & <- & Hx); cbn [In call_names local_names global_names br_names table_names] in Hx;
      repeat (destruct Hx as [<-|Hx]; [vm_compute; reflexivity|]); destruct Hx.
  Qed.

  Lemma named_iff p l : ekind p = PLAIN_INSTR ->
    (named_instr p l <-> exists t, instr_name_of p = Some t /\ name_in t l = true).
  Proof.
    intros K. unfold named_instr. split.
    - intros (_ & t & H1 & H2). exists (etext t). split; [apply instr_name_token; eauto|now apply name_in_iff].
    - intros (t & H1 & H2). split; [exact K|]. apply instr_name_token in H1 as (k & H1 & ->).
      exists k. split; [exact H1|now apply name_in_iff].
  Qed.

  Lemma asks_parent n a : Asks n a -> exists p, parent n = Some p.
  Proof. intros [p H|p H|p H|p r H|p H|p H|p H|p H|p H|p H]; eauto. Qed.

  (** A node with a parent is a child of it. *)
  Lemma parent_children n p : InTree tree n -> is_node n = true -> parent n = Some p ->
    InTree tree p /\ is_node p = true /\ In n (children p).
  Proof.
    intros H Hn Hp. destruct (parent_ex _ _ H Hn) as [->|(q & Tq & Nq & Hc & Pq)]; [discriminate|].
    rewrite Hp in Pq. injection Pq as <-. auto.
  Qed.

  Lemma enclosing_operand ks n p : InTree tree p -> ekind p = PLAIN_INSTR -> In n (children p) ->
    ~ In OPERAND ks -> enclosing ks n = enclosing ks p.
  Proof.
    intros Tp Kp Hn Hk. apply enclosing_child; [now apply in_children in Hn|].
    now rewrite (instr_child_kind src p n).
  Qed.

  Lemma raw_ref_in n a w e : InTree tree n -> is_node n = true -> Asks n a -> Written n w ->
    enclosing_of a n = Some e ->
    In (mk_symbol (key_of n) (el n) (key_of e) (ref_kind a) (widx w)) (raw_symbols nodes).
  Proof.
    intros Tn Nn Ha Hw He.
    assert (Hi : ref_idx n = Some (widx w)) by (apply ref_idx_iff; eauto).
    destruct (asks_parent _ _ Ha) as (p & Hp).
    destruct (parent_children _ _ Tn Nn Hp) as (Tp & Np & Hc).
    destruct (nodes_ex src p Tp Np) as (id & Hid).
    apply raw_in. exists id, p. split; [exact Hid|].
    assert (Hr : forall r k, In (mk_symbol (key_of n) (el n) r k (widx w)) (ref_symbol r k n))
      by (intros; unfold ref_symbol; rewrite Hi; now left).
    assert (Hinstr : forall l ks k t, ekind p = PLAIN_INSTR -> instr_name_of p = Some t -> name_in t l = true ->
              ~ In OPERAND ks -> enclosing ks n = Some e -> In (mk_symbol (key_of n) (el n) (key_of e) k (widx w)) (refs_in ks p k)).
    { intros l ks k t Kp Ht Hl Hk E. unfold refs_in. rewrite (enclosing_operand _ n p) in E by assumption.
      rewrite E. apply in_flat_map. exists n. split; [exact Hc|apply Hr]. }
    assert (Hindex : forall k, child p INDEX = Some n -> enclosing [MODULE] n = Some e ->
              In (mk_symbol (key_of n) (el n) (key_of e) k (widx w)) (index_ref p k)).
    { intros k Hx E. unfold index_ref. apply child_some in Hx as Hx'. destruct Hx' as [_ Kn].
      rewrite (enclosing_child _ p) in E by (try (apply in_children in Hc; apply Hc); rewrite Kn; intros [X|[]]; discriminate).
      rewrite E, Hx. apply Hr. }
    unfold node_symbols.
    destruct Ha as [q Hq Hx|q Hq Hx|q Hq Hx|q r Hq Hx Hf|q Hq Hx|q Hq Hx|q Hq Hx Hf|q Hq Hx Hf|q Hq Hx Hf|q Hq Hx Hf];
      rewrite Hp in Hq; injection Hq as <-; cbn [ref_kind enclosing_of] in *.
    - assert (Kp : ekind p = PLAIN_INSTR) by apply Hx. rewrite Kp.
      change (named_instr p call_names) in Hx. apply named_iff in Hx as (t & Ht & Hl); [|exact Kp].
      unfold instr_symbols. rewrite Ht, Hl. eapply Hinstr; eauto. intros [X|[]]; discriminate.
    - assert (Kp : ekind p = PLAIN_INSTR) by apply Hx. rewrite Kp.
      change (named_instr p global_names) in Hx. apply named_iff in Hx as (t & Ht & Hl); [|exact Kp].
      destruct (names_disjoint t) as (_ & _ & D & _). destruct (D Hl) as (-> & -> & _) || idtac.
      unfold instr_symbols. rewrite Ht. destruct (D Hl) as (E1 & E2 & _). rewrite E1, E2, Hl.
      eapply Hinstr; eauto. intros [X|[]]; discriminate.
    - assert (Kp : ekind p = PLAIN_INSTR) by apply Hx. rewrite Kp.
      change (named_instr p table_names) in Hx. apply named_iff in Hx as (t & Ht & Hl); [|exact Kp].
      destruct (names_disjoint t) as (_ & _ & _ & _ & D & _). destruct (D Hl) as (E1 & E2 & E3 & E4 & _).
      unfold instr_symbols. rewrite Ht, E1, E2, E3, E4, Hl.
      eapply Hinstr; eauto. intros [X|[]]; discriminate.
    - assert (Kp : ekind p = PLAIN_INSTR) by apply Hx. rewrite Kp.
      apply named_iff in Hx as (t & Ht & Hl); [|exact Kp].
      destruct (names_disjoint t) as (_ & _ & _ & _ & _ & D). destruct (D Hl) as (E1 & E2 & E3 & E4 & E5).
      unfold instr_symbols. rewrite Ht, E1, E2, E3, E4, E5, Hl, Hf.
      rewrite (enclosing_operand _ n p) in He by (auto; intros [X|[]]; discriminate). rewrite He. apply Hr.
    - assert (Kp : ekind p = PLAIN_INSTR) by apply Hx. rewrite Kp.
      change (named_instr p local_names) in Hx. apply named_iff in Hx as (t & Ht & Hl); [|exact Kp].
      destruct (names_disjoint t) as (_ & D & _). destruct (D Hl) as (E1 & _).
      unfold instr_symbols. rewrite Ht, E1, Hl.
      eapply Hinstr; eauto. intros [X|[]]; discriminate.
    - assert (Kp : ekind p = PLAIN_INSTR) by apply Hx. rewrite Kp.
      change (named_instr p br_names) in Hx. apply named_iff in Hx as (t & Ht & Hl); [|exact Kp].
      destruct (names_disjoint t) as (_ & _ & _ & D & _). destruct (D Hl) as (E1 & E2 & E3 & _).
      unfold instr_symbols. rewrite Ht, E1, E2, E3, Hl.
      eapply Hinstr; eauto. intros [X|[X|[X|[]]]]; discriminate.
    - destruct Hx as [<-|[<-|[]]]; now apply Hindex.
    - rewrite Hx. now apply Hindex.
    - destruct Hx as [<-|[<-|[]]]; now apply Hindex.
    - rewrite Hx. now apply Hindex.
  Qed.

  Definition is_ref_kind (s : symbol) : bool :=
    existsb (skind_eqb (s_kind s)) [SCall; SLocalRef; STypeUse; SGlobalRef; SMemoryRef; STableRef; SBlockRef].

  Lemma raw_ref_out s : In s (raw_symbols nodes) -> is_ref_kind s = true ->
    exists n a w e, InTree tree n /\ is_node n = true /\ Asks n a /\ Written n w /\ enclosing_of a n = Some e
      /\ s = mk_symbol (key_of n) (el n) (key_of e) (ref_kind a) (widx w).
  Proof.
    intros Hs Hk. apply raw_in in Hs as (id & p & Hp & Hs). apply nodes_in in Hp as [Tp Np].
    assert (Hone : forall a r n, In n (children p) -> Asks n a -> enclosing_of a n = Some r ->
       In s (ref_symbol (key_of r) (ref_kind a) n) ->
       exists n a w e, InTree tree n /\ is_node n = true /\ Asks n a /\ Written n w /\ enclosing_of a n = Some e
      /\ s = mk_symbol (key_of n) (el n) (key_of e) (ref_kind a) (widx w)).
    { intros a r n Hc Ha He Hin. apply in_ref_symbol in Hin as (i & Hi & ->).
      apply ref_idx_iff in Hi as (w & Hw & ->). exists n, a, w, r.
      split; [now apply in_tree_child with p|]. split; [now apply child_node with p|]. auto. }
    assert (Hinstr : forall a ks, ekind p = PLAIN_INSTR -> (forall n, parent n = Some p -> Asks n a) -> ~ In OPERAND ks ->
       (forall n, enclosing_of a n = enclosing ks n) -> In s (refs_in ks p (ref_kind a)) ->
       exists n a w e, InTree tree n /\ is_node n = true /\ Asks n a /\ Written n w /\ enclosing_of a n = Some e
      /\ s = mk_symbol (key_of n) (el n) (key_of e) (ref_kind a) (widx w)).
    { intros a ks Kp Ha Hks He Hin. unfold refs_in in Hin. destruct (enclosing ks p) as [r|] eqn:E; [|destruct Hin].
      apply in_flat_map in Hin as (n & Hc & Hin). apply (Hone a r n); auto.
      - apply Ha. now apply children_parent.
      - rewrite He, (enclosing_operand _ n p); auto. }
    assert (Hindex : forall a so, a = AModule so -> (forall n, parent n = Some p -> child p INDEX = Some n -> Asks n a) ->
       In s (index_ref p (ref_kind a)) ->
       exists n a w e, InTree tree n /\ is_node n = true /\ Asks n a /\ Written n w /\ enclosing_of a n = Some e
      /\ s = mk_symbol (key_of n) (el n) (key_of e) (ref_kind a) (widx w)).
    { intros a so -> Ha Hin. unfold index_ref in Hin. destruct (enclosing [MODULE] p) as [r|] eqn:E; [|destruct Hin].
      destruct (child p INDEX) as [n|] eqn:C; [|destruct Hin]. apply child_some in C as C'. destruct C' as [Hc Kn].
      apply (Hone (AModule so) r n); auto.
      - apply Ha; [now apply children_parent|reflexivity].
      - cbn [enclosing_of]. rewrite (enclosing_child _ p); [exact E|now apply in_children in Hc|]. rewrite Kn. intros [X|[]]; discriminate. }
    assert (Hno : forall k, s_kind s = k -> existsb (skind_eqb k) [SCall; SLocalRef; STypeUse; SGlobalRef; SMemoryRef; STableRef; SBlockRef] = false -> False).
    { intros k <- E. unfold is_ref_kind in Hk. congruence. }
    assert (Hpb : forall i k, In s (parent_based p i k) -> existsb (skind_eqb k) [SCall; SLocalRef; STypeUse; SGlobalRef; SMemoryRef; STableRef; SBlockRef] = false -> False).
    { intros i k Hin. apply parent_based_kind in Hin. now apply Hno. }
    assert (Hib : forall i k, In s (import_desc_based p i k) -> existsb (skind_eqb k) [SCall; SLocalRef; STypeUse; SGlobalRef; SMemoryRef; STableRef; SBlockRef] = false -> False).
    { intros i k Hin. unfold import_desc_based in Hin. destruct (parent p) as [q|]; [|destruct Hin].
      destruct (parent q); [|destruct Hin]. destruct Hin as [<-|[]]. now apply Hno. }
    unfold node_symbols in Hs.
    destruct (ekind p) eqn:K; try destruct Hs;
      try (exfalso; eapply Hpb; [exact Hs|reflexivity]); try (exfalso; eapply Hib; [exact Hs|reflexivity]).
    - unfold instr_symbols in Hs. destruct (instr_name_of p) as [t|] eqn:Ht; [|destruct Hs].
      destruct (name_in t call_names) eqn:E1.
      { apply (Hinstr (AModule FuncS) [MODULE]); auto; [|intros [X|[]]; discriminate].
        intros n Hn. apply Asks_call with p; auto. apply named_iff; eauto. }
      destruct (name_in t local_names) eqn:E2.
      { apply (Hinstr ALocal [MODULE_FIELD_FUNC]); auto; [|intros [X|[]]; discriminate].
        intros n Hn. apply Asks_local with p; auto. apply named_iff; eauto. }
      destruct (name_in t global_names) eqn:E3.
      { apply (Hinstr (AModule GlobalS) [MODULE]); auto; [|intros [X|[]]; discriminate].
        intros n Hn. apply Asks_global with p; auto. apply named_iff; eauto. }
      destruct (name_in t br_names) eqn:E4.
      { apply (Hinstr ALabel block_kinds); auto; [|intros [X|[X|[X|[]]]]; discriminate].
        intros n Hn. apply Asks_label with p; auto. apply named_iff; eauto. }
      destruct (name_in t table_names) eqn:E5.
      { apply (Hinstr (AModule TableS) [MODULE]); auto; [|intros [X|[]]; discriminate].
        intros n Hn. apply Asks_table with p; auto. apply named_iff; eauto. }
      destruct (name_in t ["table.init"%string]) eqn:E6; [|destruct Hs].
      destruct (enclosing [MODULE] p) as [r|] eqn:E; [|destruct Hs].
      destruct (children p) as [|c rest] eqn:Hc; [destruct Hs|].
      assert (Hcc : In c (children p)) by (rewrite Hc; now left).
      apply (Hone (AModule TableS) r c); auto.
      + now left.
      + apply Asks_init with p rest; auto; [now apply children_parent|]. apply named_iff; eauto.
      + cbn [enclosing_of]. rewrite (enclosing_operand _ c p); auto. intros [X|[]]; discriminate.
    - apply (Hindex (AModule TypeS) TypeS); auto. intros n H1 H2. apply Asks_type_index with p; auto.
    - apply (Hindex (AModule FuncS) FuncS); auto. intros n H1 H2. apply Asks_func_index with p; auto. rewrite K. cbn. auto.
    - apply (Hindex (AModule TableS) TableS); auto. intros n H1 H2. apply Asks_table_index with p; auto.
    - apply (Hindex (AModule MemS) MemS); auto. intros n H1 H2. apply Asks_mem_index with p; auto. rewrite K. cbn. auto.
    - apply (Hindex (AModule MemS) MemS); auto. intros n H1 H2. apply Asks_mem_index with p; auto. rewrite K. cbn. auto.
    - destruct (parent p); [|destruct Hs]. destruct Hs as [<-|[]]. discriminate.
    - apply in_app_or in Hs as [Hs|Hs]; [exfalso; eapply Hpb; [exact Hs|reflexivity]|].
      apply in_app_or in Hs as [Hs|Hs]; apply number_slots_kind in Hs; exfalso; eapply Hno; eauto.
    - apply (Hindex (AModule FuncS) FuncS); auto. intros n H1 H2. apply Asks_func_index with p; auto. rewrite K. cbn. auto.
  Qed.
End Doc.
