(** What the references request lists, in terms of the tree. *)

From Coq Require Import String List NArith Bool Arith Lia.
From Verif Require Import Text Kind Green SpecParser Lexer LexerFacts Winnow Grammar Sem Lossless Total
  Bounds Lang TokForm Shape Red Unique LineIndex Cursor Doc Ast Binder Preorder SpecBinder BinderFacts BinderDefs Blocks
  Nav NavSpec NavFacts ThmNav.
Import ListNotations.

Section Doc.
  Variable src : text.
  Notation tree := (tree_of src).
  Notation nodes := (nodes src).
  Notation tb := (the_table src).

  (** Every symbol stands for a node that can be pointed to. *)
  Lemma raw_pointable s : In s (raw_symbols nodes) -> exists n, pointable src n /\ s_key s = key_of n.
  Proof.
    intros Hs. apply raw_in in Hs as (id & e & He & Hs).
    destruct (raw_node src _ _ _ He Hs) as (n & T & N & O & E). exists n. split; [|exact E].
    split; [exact T|]. split; [exact N|].
    split; intros K; unfold owner in O; rewrite K in O; injection O as ->; unfold node_symbols in Hs; rewrite K in Hs; destruct Hs.
  Qed.
  Lemma raw_nodup : NoDup (raw_symbols nodes).
  Proof.
    unfold raw_symbols. apply NoDup_flat_map.
    - assert (H : NoDup (map snd nodes)).
      { unfold BinderFacts.nodes. rewrite number_snd. apply descendants_nodup. }
      revert H. generalize nodes. intros l H. induction l as [|x l IH]; [constructor|]. cbn in H. inversion H; subst.
      constructor; [|auto]. intros Hx. apply H2. now apply in_map.
    - intros (id & e) He. apply nodes_in in He as [T N]. cbn.
      destruct (node_symbols_keys src id e T N) as (l & E & D & Hl).
      apply (NoDup_map_inv s_key). rewrite E. apply (map_key_nodup src); [exact D|].
      intros n Hn. destruct (Hl n Hn) as (A & B & _). auto.
    - intros (i & e) (j & e') s H1 H2 H3 H4. cbn in H3, H4.
      destruct (raw_node src _ _ _ H1 H3) as (n & A & B & C & D).
      destruct (raw_node src _ _ _ H2 H4) as (n' & A' & B' & C' & D').
      assert (n = n') as <- by (apply (key_inj src); auto; congruence).
      assert (e = e') as <- by congruence. f_equal. eapply nodes_fun; eauto.
  Qed.

  Definition stands (n : elem) (s : symbol) : Prop := In s (raw_symbols nodes) /\ s_key s = key_of n.

  (** A list of distinct symbols as a list of distinct nodes. *)
  Lemma nodes_of_symbols ss : NoDup ss -> (forall s, In s ss -> In s (raw_symbols nodes)) ->
    exists ns, NoDup ns /\ Forall2 (fun s d => s_key s = key_of d /\ pointable src d) ss ns
      /\ forall n, In n ns <-> InTree tree n /\ is_node n = true /\ exists s, In s ss /\ stands n s.
  Proof.
    induction ss as [|s ss IH]; intros D H.
    - exists []. split; [constructor|]. split; [constructor|]. intros n. split; [intros []|intros (_ & _ & s & [] & _)].
    - inversion D as [|? ? D1 D2]; subst. destruct IH as (ns & N1 & N2 & N3); [exact D2|intros x Hx; apply H; now right|].
      assert (Hs : In s (raw_symbols nodes)) by (apply H; now left).
      destruct (raw_pointable s Hs) as (n & P & E). exists (n :: ns). split; [|split].
      + constructor; [|exact N1]. intros Hn. apply N3 in Hn as (_ & _ & s' & Hs' & Hr & E').
        apply D1. replace s with s'; [exact Hs'|]. apply (raw_key_inj src); auto. congruence.
      + constructor; auto.
      + intros x. cbn [In]. rewrite N3. split.
        * intros [<-|(A & B & s' & Hs' & St)].
          -- split; [apply P|]. split; [apply P|]. exists s. split; [now left|]. split; auto.
          -- split; [exact A|]. split; [exact B|]. exists s'. split; [now right|exact St].
        * intros (A & B & s' & [<-|Hs'] & St).
          -- left. destruct St as [_ St]. destruct P as (P1 & P2 & _). apply (key_inj src); auto. congruence.
          -- right. split; [exact A|]. split; [exact B|]. eauto.
  Qed.

  (** ** Module-level definitions *)

  Lemma definitions_nodup m : NoDup (definitions m).
  Proof. apply NoDup_filter, descendants_nodup. Qed.
  Lemma denotes_iff m i d w : In (i, d) (enum 0 (definitions m)) ->
    (is_defined_by (widx w) (mk_idx (Some i) (ident_of d)) = true <-> denotes m w d).
  Proof.
    intros Hi. apply in_enum in Hi as (j & Hj & Ei). cbn [fst snd] in *. rewrite N.add_0_l in Ei. subst i.
    destruct w as [x|k]; cbn [widx is_defined_by i_num i_name denotes].
    - unfold has_name, ident_of. destruct (token d IDENT); cbn; [now rewrite text_eqb_sym|reflexivity].
    - rewrite N.eqb_eq. split.
      + intros ->. now rewrite Nat2N.id.
      + intros H. assert (N.to_nat k = j); [|lia].
        apply (proj1 (NoDup_nth_error (definitions m)) (definitions_nodup m)); [apply nth_error_Some; congruence|congruence].
  Qed.
  Lemma def_found m s d : InTree tree m -> is_node m = true -> ekind m = MODULE -> In d (definitions_of s m) ->
    exists i, In (i, d) (enum 0 (definitions m)) /\ has_sort s d = true
      /\ In (def_symbol m (sort_kind s) (i, d)) (raw_symbols nodes).
  Proof.
    intros T N K Hd. unfold definitions_of in Hd. apply filter_In in Hd as [Hd Hs].
    assert (Hd' : In d (definitions m)).
    { unfold definitions. apply filter_In. split; [exact Hd|now apply has_sort_def with s]. }
    apply In_nth_error in Hd' as (j & Hj). exists (N.of_nat j).
    assert (Hi : In (N.of_nat j, d) (enum 0 (definitions m))) by (apply in_enum; exists j; cbn; split; [exact Hj|lia]).
    split; [exact Hi|]. split; [exact Hs|].
    assert (In (def_symbol m (sort_kind s) (N.of_nat j, d)) (filter (in_region m s) (raw_symbols nodes))) as Hf.
    { rewrite module_defs by assumption. apply in_map. apply filter_In. auto. }
    now apply filter_In in Hf.
  Qed.
  Lemma in_region_out m s x : InTree tree m -> is_node m = true -> ekind m = MODULE ->
    In x (raw_symbols nodes) -> s_kind x = sort_kind s -> s_region x = key_of m ->
    exists i d, In (i, d) (enum 0 (definitions m)) /\ has_sort s d = true /\ x = def_symbol m (sort_kind s) (i, d).
  Proof.
    intros T N K Hx Hk Hr.
    assert (Hf : In x (filter (in_region m s) (raw_symbols nodes))).
    { apply filter_In. split; [exact Hx|]. unfold in_region. now rewrite Hr, Hk, key_eqb_refl, skind_eqb_refl. }
    rewrite module_defs in Hf by assumption. apply in_map_iff in Hf as ((i & d) & <- & Hf).
    apply filter_In in Hf as [H1 H2]. exists i, d. auto.
  Qed.

  Lemma ref_kind_inj a b : ref_kind a = ref_kind b -> a = b.
  Proof. destruct a as [[]| |], b as [[]| |]; cbn; congruence. Qed.
  Lemma ref_is_ref n e a w : is_ref_kind (ref_sym n e a w) = true.
  Proof. destruct a as [[]| |]; reflexivity. Qed.

  (** A reference symbol of a given sort whose region is the module. *)
  Lemma module_ref_stands n s m x : InTree tree n -> is_node n = true -> InTree tree m -> is_node m = true -> ekind m = MODULE ->
    stands n x -> s_kind x = ref_kind (AModule s) -> s_region x = key_of m ->
    exists w, Asks n (AModule s) /\ Written n w /\ in_module n m /\ x = ref_sym n m (AModule s) w.
  Proof.
    intros T N Tm Nm Km [Hx E] K R.
    destruct (ref_found src n x T N Hx E) as (a & w & e & A & W & He & ->).
    { unfold is_ref_kind. rewrite K. destruct s; reflexivity. }
    cbn [ref_sym s_kind] in K. apply ref_kind_inj in K as ->. cbn [enclosing_of] in He. cbn in R.
    apply enclosing_some in He as [Ha [Ke|[]]]. destruct (ancestor_node src _ _ T N Ha) as (Te & De & Ne).
    assert (e = m) as -> by (apply (key_inj src); auto). exists w. split; [exact A|]. split; [exact W|].
    split; [split; auto|reflexivity].
  Qed.
  Lemma module_ref_in n s w m : InTree tree n -> is_node n = true -> Asks n (AModule s) -> Written n w ->
    in_module n m -> InTree tree m -> stands n (ref_sym n m (AModule s) w).
  Proof.
    intros T N A W M Tm. split; [|reflexivity]. apply raw_ref_in; auto. now apply (module_enclosing src).
  Qed.

  Lemma find_key_stands n x : stands n x -> find_key tb (key_of n) = Some x.
  Proof. intros [H E]. rewrite <- E. now apply find_key_spec. Qed.

  Lemma refs_def_spec incl m s d x : InTree tree m -> is_node m = true -> ekind m = MODULE -> In d (definitions_of s m) ->
    stands d x -> exists ss, listed incl tb x = Some ss /\ NoDup ss /\ (forall y, In y ss -> In y (raw_symbols nodes))
      /\ forall n, InTree tree n -> is_node n = true ->
         ((exists y, In y ss /\ stands n y) <-> (incl = true /\ n = d) \/ Resolves src n d).
  Proof.
    intros T N K Hd [Hx Ex]. destruct (def_found m s d T N K Hd) as (i & Hi & Hs & Hr).
    assert (x = def_symbol m (sort_kind s) (i, d)) as -> by (apply (raw_key_inj src); auto). clear Hx Ex.
    set (x := def_symbol m (sort_kind s) (i, d)) in *.
    exists (refs_of_def incl tb x (ref_kind (AModule s))). split; [|split; [|split]].
    - unfold listed. cbn [x def_symbol s_kind]. destruct s; reflexivity.
    - apply NoDup_filter. apply raw_nodup.
    - intros y Hy. now apply filter_In in Hy.
    - intros n Tn Nn.
      assert (Hdm : InTree tree d /\ is_node d = true).
      { destruct (def_pointable src m d T) as (A & B & _); [|auto]. now apply in_enum in Hi as (j & Hj & _); apply nth_error_In in Hj. }
      split.
      + intros (y & Hy & St). unfold refs_of_def in Hy. apply filter_In in Hy as [Hy Py].
        destruct (skind_eqb (s_kind y) (s_kind x)) eqn:K1.
        * apply andb_prop in Py as [Py Py3]. apply andb_prop in Py as [Py1 Py2].
          apply skind_eqb_eq in K1. apply key_eqb_eq in Py3.
          destruct (in_region_out m s y T N K Hy K1 Py3) as (i' & d' & Hi' & Hs' & ->).
          left. split; [exact Py1|].
          unfold idx_eqb in Py2. cbn [x def_symbol s_idx i_num] in Py2. apply andb_prop in Py2 as [Py2 _].
          cbn in Py2. apply N.eqb_eq in Py2. subst i'.
          apply in_enum in Hi as (j & Hj & Ej), Hi' as (j' & Hj' & Ej'). cbn in Ej, Ej', Hj, Hj'.
          assert (j = j') as <- by lia. assert (d' = d) as -> by congruence.
          apply (key_inj src); try tauto. destruct St as [_ St]. now rewrite <- St.
        * destruct (skind_eqb (s_kind y) (ref_kind (AModule s))) eqn:K2; [|discriminate].
          apply skind_eqb_eq in K2. apply andb_prop in Py as [Py1 Py2]. apply key_eqb_eq in Py2.
          destruct (module_ref_stands n s m y Tn Nn T N K St K2 Py2) as (w & A & W & M & ->).
          right. exists s, m, w. repeat (split; [assumption|]).
          cbn [ref_sym s_idx x def_symbol fst snd] in Py1. exact (proj1 (denotes_iff m i d w Hi) Py1).
      + intros [[-> ->]|(s' & m' & w & A & W & M & Tm' & Hd' & De)].
        * exists x. split; [|split; [exact Hr|reflexivity]]. unfold refs_of_def. apply filter_In. split; [exact Hr|].
          rewrite skind_eqb_refl, key_eqb_refl. unfold idx_eqb, opt_eqb.
          destruct (s_idx x) as [[] []]; cbn; rewrite ?N.eqb_refl; try reflexivity;
            (assert (text_eqb t t = true) as -> by now apply text_eqb_eq); reflexivity.
        * assert (m' = m) as ->.
          { destruct M as (Km & Nm & Dm).
            assert (Dd : Desc m' d). { unfold definitions_of in Hd'. apply filter_In in Hd' as [Hd' _]. now apply in_descendants_of in Hd'. }
            assert (Dd2 : Desc m d). { unfold definitions_of in Hd. apply filter_In in Hd as [Hd _]. now apply in_descendants_of in Hd. }
            eapply (module_unique src d); eauto. }
          assert (s' = s) as ->.
          { unfold definitions_of in Hd'. apply filter_In in Hd' as [_ Hd']. unfold has_sort in Hs, Hd'.
            destruct (def_sort d) as [[]|]; destruct s, s'; try discriminate; reflexivity. }
          exists (ref_sym n m (AModule s) w). pose proof (module_ref_in n s w m Tn Nn A W M T) as St.
          split; [|exact St]. unfold refs_of_def. apply filter_In. split; [apply St|].
          cbn [ref_sym x def_symbol s_kind s_idx s_region fst snd].
          assert (skind_eqb (ref_kind (AModule s)) (sort_kind s) = false) as -> by (destruct s; reflexivity).
          rewrite skind_eqb_refl, key_eqb_refl, andb_true_r. exact (proj2 (denotes_iff m i d w Hi) De).
  Qed.

  (** Seen from a reference. *)
  Lemma resolves_iff n s w m d : Asks n (AModule s) -> Written n w -> in_module n m -> InTree tree m ->
    (Resolves src n d <-> In d (definitions_of s m) /\ denotes m w d).
  Proof.
    intros A W M Tm. split.
    - intros (s' & m' & w' & A' & W' & M' & Tm' & Hd & De).
      pose proof (asks_fun n _ _ A A') as E. injection E as <-. rewrite (Written_fun _ _ _ W W').
      destruct M as (K & N & D), M' as (K' & N' & D'). assert (m = m') as -> by (eapply (module_unique src n); eauto). auto.
    - intros [Hd De]. exists s, m, w. tauto.
  Qed.
  Lemma refs_ref_spec incl n0 s w0 m : InTree tree n0 -> is_node n0 = true ->
    Asks n0 (AModule s) -> Written n0 w0 -> in_module n0 m -> InTree tree m ->
    exists ss, listed incl tb (ref_sym n0 m (AModule s) w0) = Some ss /\ NoDup ss
      /\ (forall y, In y ss -> In y (raw_symbols nodes))
      /\ forall n, InTree tree n -> is_node n = true ->
         ((exists y, In y ss /\ stands n y) <->
          (incl = true /\ Resolves src n0 n) \/ exists d, Resolves src n0 d /\ Resolves src n d).
  Proof.
    intros T0 N0 A0 W0 M0 Tm. assert (Km : ekind m = MODULE) by apply M0. assert (Nm : is_node m = true) by apply M0.
    set (x := ref_sym n0 m (AModule s) w0).
    set (defs := map (def_symbol m (sort_kind s)) (filter (matches s w0) (enum 0 (definitions m)))).
    exists (refs_of_ref incl tb x (sort_kind s) defs). split; [|split; [|split]].
    - unfold listed. cbn [x ref_sym s_kind s_key]. rewrite (find_defs_spec src n0 s w0 m) by assumption.
      fold defs. destruct s; reflexivity.
    - apply NoDup_filter. apply raw_nodup.
    - intros y Hy. now apply filter_In in Hy.
    - intros n Tn Nn.
      assert (Hdefs : forall i d, In (i, d) (enum 0 (definitions m)) -> has_sort s d = true ->
                In d (definitions_of s m) /\ InTree tree d /\ is_node d = true).
      { intros i d Hi Hs. assert (Hd : In d (definitions m)) by (apply in_enum in Hi as (j & Hj & _); now apply nth_error_In in Hj).
        destruct (def_pointable src m d Tm Hd) as (A & B & _).
        split; [|auto]. unfold definitions in Hd. apply filter_In in Hd as [Hd _]. apply filter_In. auto. }
      split.
      + intros (y & Hy & St). unfold refs_of_ref in Hy. apply filter_In in Hy as [Hy Py].
        destruct (skind_eqb (s_kind y) (sort_kind s)) eqn:K1.
        * apply andb_prop in Py as [Py Py3]. apply andb_prop in Py as [Py1 Py2].
          apply skind_eqb_eq in K1. apply key_eqb_eq in Py3.
          destruct (in_region_out m s y Tm Nm Km Hy K1 Py3) as (i & d & Hi & Hs & ->).
          destruct (Hdefs i d Hi Hs) as (Hd1 & Hd2 & Hd3).
          assert (n = d) as -> by (apply (key_inj src); auto; destruct St as [_ St]; now rewrite <- St).
          left. split; [exact Py1|]. apply (resolves_iff n0 s w0 m); auto. split; [exact Hd1|].
          cbn [x ref_sym s_idx def_symbol fst snd] in Py2. exact (proj1 (denotes_iff m i d w0 Hi) Py2).
        * destruct (skind_eqb (s_kind y) (s_kind x)) eqn:K2; [|discriminate].
          apply skind_eqb_eq in K2. apply andb_prop in Py as [Py1 Py2]. apply key_eqb_eq in Py2.
          destruct (module_ref_stands n s m y Tn Nn Tm Nm Km St K2 Py2) as (w & A & W & M & ->).
          right. apply existsb_exists in Py1 as (sd & Hsd & Py1). apply in_map_iff in Hsd as ((i & d) & <- & Hf).
          apply filter_In in Hf as [Hi Hm]. unfold matches in Hm. apply andb_prop in Hm as [Hs Hm]. cbn [fst snd] in Hs, Hm.
          destruct (Hdefs i d Hi Hs) as (Hd1 & _). exists d. split.
          -- apply (resolves_iff n0 s w0 m); auto. split; [exact Hd1|]. exact (proj1 (denotes_iff m i d w0 Hi) Hm).
          -- apply (resolves_iff n s w m); auto. split; [exact Hd1|].
             cbn [ref_sym s_idx def_symbol fst snd] in Py1. exact (proj1 (denotes_iff m i d w Hi) Py1).
      + intros [[-> Hr]|(d & Hr0 & Hr)].
        * apply (resolves_iff n0 s w0 m) in Hr as [Hd De]; auto.
          destruct (def_found m s n Tm Nm Km Hd) as (i & Hi & Hs & Hin).
          exists (def_symbol m (sort_kind s) (i, n)). split; [|split; [exact Hin|reflexivity]].
          unfold refs_of_ref. apply filter_In. split; [exact Hin|].
          cbn [x ref_sym def_symbol s_kind s_idx s_region fst snd]. rewrite skind_eqb_refl, key_eqb_refl, andb_true_r.
          cbn. exact (proj2 (denotes_iff m i n w0 Hi) De).
        * apply (resolves_iff n0 s w0 m) in Hr0 as [Hd De0]; auto.
          destruct (def_found m s d Tm Nm Km Hd) as (i & Hi & Hs & Hin).
          destruct Hr as (s' & m' & w & A & W & M & Tm' & Hd' & De).
          assert (m' = m) as ->.
          { destruct M as (Km' & Nm' & Dm').
            assert (Dd : Desc m' d). { unfold definitions_of in Hd'. apply filter_In in Hd' as [Hd' _]. now apply in_descendants_of in Hd'. }
            assert (Dd2 : Desc m d). { unfold definitions_of in Hd. apply filter_In in Hd as [Hd _]. now apply in_descendants_of in Hd. }
            eapply (module_unique src d); eauto. }
          assert (s' = s) as ->.
          { unfold definitions_of in Hd'. apply filter_In in Hd' as [_ Hd']. unfold has_sort in Hs, Hd'.
            destruct (def_sort d) as [[]|]; destruct s, s'; try discriminate; reflexivity. }
          pose proof (module_ref_in n s w m Tn Nn A W M Tm) as St. exists (ref_sym n m (AModule s) w).
          split; [|exact St]. unfold refs_of_ref. apply filter_In. split; [apply St|].
          cbn [x ref_sym s_kind s_idx s_region].
          assert (skind_eqb (ref_kind (AModule s)) (sort_kind s) = false) as -> by (destruct s; reflexivity).
          rewrite skind_eqb_refl, key_eqb_refl, andb_true_r. apply existsb_exists.
          exists (def_symbol m (sort_kind s) (i, d)). split.
          -- apply in_map. apply filter_In. split; [exact Hi|]. unfold matches. cbn [fst snd]. rewrite Hs.
             exact (proj2 (denotes_iff m i d w0 Hi) De0).
          -- cbn [def_symbol s_idx fst snd]. exact (proj2 (denotes_iff m i d w Hi) De).
  Qed.

  (** ** Parameters and locals *)

  Lemma locals_nodup f : NoDup (locals_space f).
  Proof. rewrite locals_space_slots. apply func_slots_nodup. Qed.
  Lemma local_denotes_iff f i d w : In (i, d) (enum 0 (locals_space f)) ->
    (is_defined_by (widx w) (mk_idx (Some i) (slot_name d)) = true <-> local_denotes f w d).
  Proof.
    intros Hi. apply in_enum in Hi as (j & Hj & Ei). cbn [fst snd] in *. rewrite N.add_0_l in Ei. subst i.
    destruct w as [x|k]; cbn [widx is_defined_by i_num i_name local_denotes].
    - unfold slot_has_name. apply nth_error_In in Hj. destruct (slot_name d); [tauto|intuition discriminate].
    - rewrite N.eqb_eq. split.
      + intros ->. now rewrite Nat2N.id.
      + intros H. assert (N.to_nat k = j); [|lia].
        apply (proj1 (NoDup_nth_error (locals_space f)) (locals_nodup f)); [apply nth_error_Some; congruence|congruence].
  Qed.
  Definition local_symbol (f : elem) (p : N * elem) : symbol := slot_symbol f (slot_kind f (fst p)) p.
  Lemma slot_found f d : InTree tree f -> is_node f = true -> ekind f = MODULE_FIELD_FUNC -> In d (locals_space f) ->
    exists i, In (i, d) (enum 0 (locals_space f)) /\ In (local_symbol f (i, d)) (raw_symbols nodes).
  Proof.
    intros T N K Hd. apply In_nth_error in Hd as (j & Hj). exists (N.of_nat j).
    assert (Hi : In (N.of_nat j, d) (enum 0 (locals_space f))) by (apply in_enum; exists j; cbn; split; [exact Hj|lia]).
    split; [exact Hi|].
    assert (In (local_symbol f (N.of_nat j, d)) (filter (fun x => key_eqb (s_region x) (key_of f) && is_param_or_local x) (raw_symbols nodes))) as Hf.
    { rewrite func_locals by assumption. rewrite local_symbols_enum. apply (in_map (local_symbol f)). exact Hi. }
    now apply filter_In in Hf.
  Qed.
  Lemma slot_out f x : InTree tree f -> is_node f = true -> ekind f = MODULE_FIELD_FUNC ->
    In x (raw_symbols nodes) -> is_param_or_local x = true -> s_region x = key_of f ->
    exists i d, In (i, d) (enum 0 (locals_space f)) /\ x = local_symbol f (i, d).
  Proof.
    intros T N K Hx Hk Hr.
    assert (Hf : In x (filter (fun x => key_eqb (s_region x) (key_of f) && is_param_or_local x) (raw_symbols nodes))).
    { apply filter_In. split; [exact Hx|]. now rewrite Hr, Hk, key_eqb_refl. }
    rewrite func_locals, local_symbols_enum in Hf by assumption. apply in_map_iff in Hf as ((i & d) & <- & Hf).
    exists i, d. auto.
  Qed.
  Lemma local_ref_stands n f x : InTree tree n -> is_node n = true -> InTree tree f -> is_node f = true ->
    ekind f = MODULE_FIELD_FUNC -> stands n x -> s_kind x = SLocalRef -> s_region x = key_of f ->
    exists w, Asks n ALocal /\ Written n w /\ in_func n f /\ x = ref_sym n f ALocal w.
  Proof.
    intros T N Tf Nf Kf [Hx E] K R.
    destruct (ref_found src n x T N Hx E) as (a & w & e & A & W & He & ->).
    { unfold is_ref_kind. rewrite K. reflexivity. }
    cbn [ref_sym s_kind] in K. apply (ref_kind_inj a ALocal) in K as ->. cbn [enclosing_of] in He. cbn in R.
    apply enclosing_some in He as [Ha [Ke|[]]]. destruct (ancestor_node src _ _ T N Ha) as (Te & De & Ne).
    assert (e = f) as -> by (apply (key_inj src); auto). exists w. split; [exact A|]. split; [exact W|].
    split; [split; auto|reflexivity].
  Qed.
  Lemma local_ref_in n w f : InTree tree n -> is_node n = true -> Asks n ALocal -> Written n w ->
    in_func n f -> InTree tree f -> stands n (ref_sym n f ALocal w).
  Proof.
    intros T N A W M Tm. split; [|reflexivity]. apply raw_ref_in; auto. now apply (enclosing_func src).
  Qed.

  Definition LocalUse (f n d : elem) : Prop :=
    exists w, Asks n ALocal /\ Written n w /\ in_func n f /\ local_denotes f w d.

  Lemma local_kind f p : s_kind (local_symbol f p) = SParam \/ s_kind (local_symbol f p) = SLocal.
  Proof. cbn. unfold slot_kind. destruct (N.ltb _ _); auto. Qed.

  Lemma refs_slot_spec incl f d x : InTree tree f -> is_node f = true -> ekind f = MODULE_FIELD_FUNC ->
    In d (locals_space f) -> stands d x ->
    exists ss, listed incl tb x = Some ss /\ NoDup ss /\ (forall y, In y ss -> In y (raw_symbols nodes))
      /\ forall n, InTree tree n -> is_node n = true ->
         ((exists y, In y ss /\ stands n y) <-> (incl = true /\ n = d) \/ LocalUse f n d).
  Proof.
    intros T N K Hd [Hx Ex]. destruct (slot_found f d T N K Hd) as (i & Hi & Hr).
    assert (x = local_symbol f (i, d)) as -> by (apply (raw_key_inj src); auto). clear Hx Ex.
    set (x := local_symbol f (i, d)) in *.
    assert (Kx : s_kind x = SParam \/ s_kind x = SLocal) by apply local_kind.
    exists (refs_of_def incl tb x SLocalRef). split; [|split; [|split]].
    - unfold listed. destruct Kx as [-> | ->]; reflexivity.
    - apply NoDup_filter. apply raw_nodup.
    - intros y Hy. now apply filter_In in Hy.
    - intros n Tn Nn. destruct (slot_pointable src f d T K Hd) as (Td & Nd & _). split.
      + intros (y & Hy & St). unfold refs_of_def in Hy. apply filter_In in Hy as [Hy Py].
        destruct (skind_eqb (s_kind y) (s_kind x)) eqn:K1.
        * apply andb_prop in Py as [Py Py3]. apply andb_prop in Py as [Py1 Py2].
          apply skind_eqb_eq in K1. apply key_eqb_eq in Py3.
          destruct (slot_out f y T N K Hy) as (i' & d' & Hi' & ->); [|exact Py3|].
          { unfold is_param_or_local. rewrite K1. now destruct Kx as [-> | ->]. }
          left. split; [exact Py1|].
          unfold idx_eqb in Py2. apply andb_prop in Py2 as [Py2 _].
          cbn in Py2. apply N.eqb_eq in Py2. subst i'.
          apply in_enum in Hi as (j & Hj & Ej), Hi' as (j' & Hj' & Ej'). cbn in Ej, Ej', Hj, Hj'.
          assert (j = j') as <- by lia. assert (d' = d) as -> by congruence.
          apply (key_inj src); auto. destruct St as [_ St]. now rewrite <- St.
        * destruct (skind_eqb (s_kind y) SLocalRef) eqn:K2; [|discriminate].
          apply skind_eqb_eq in K2. apply andb_prop in Py as [Py1 Py2]. apply key_eqb_eq in Py2.
          destruct (local_ref_stands n f y Tn Nn T N K St K2 Py2) as (w & A & W & M & ->).
          right. exists w. repeat (split; [assumption|]).
          exact (proj1 (local_denotes_iff f i d w Hi) Py1).
      + intros [[-> ->]|(w & A & W & M & De)].
        * exists x. split; [|split; [exact Hr|reflexivity]]. unfold refs_of_def. apply filter_In. split; [exact Hr|].
          rewrite skind_eqb_refl, key_eqb_refl. unfold idx_eqb, opt_eqb.
          destruct (s_idx x) as [[] []]; cbn; rewrite ?N.eqb_refl; try reflexivity;
            (assert (text_eqb t t = true) as -> by now apply text_eqb_eq); reflexivity.
        * exists (ref_sym n f ALocal w). pose proof (local_ref_in n w f Tn Nn A W M T) as St.
          split; [|exact St]. unfold refs_of_def. apply filter_In. split; [apply St|].
          cbn [ref_sym s_kind s_idx s_region ref_kind].
          assert (skind_eqb SLocalRef (s_kind x) = false) as -> by (destruct Kx as [-> | ->]; reflexivity).
          rewrite skind_eqb_refl. change (s_region x) with (key_of f). rewrite key_eqb_refl, andb_true_r.
          exact (proj2 (local_denotes_iff f i d w Hi) De).
  Qed.

  Lemma refs_local_ref_spec incl n0 w0 f d : InTree tree n0 -> is_node n0 = true ->
    Asks n0 ALocal -> Written n0 w0 -> in_func n0 f -> InTree tree f -> local_target f w0 = Some d ->
    exists ss, listed incl tb (ref_sym n0 f ALocal w0) = Some ss /\ NoDup ss
      /\ (forall y, In y ss -> In y (raw_symbols nodes))
      /\ forall n, InTree tree n -> is_node n = true ->
         ((exists y, In y ss /\ stands n y) <-> (incl = true /\ local_denotes f w0 n) \/ LocalUse f n d).
  Proof.
    intros T0 N0 A0 W0 M0 Tf Ht. assert (Kf : ekind f = MODULE_FIELD_FUNC) by apply M0. assert (Nf : is_node f = true) by apply M0.
    set (x := ref_sym n0 f ALocal w0).
    assert (Hd : exists i, In (i, d) (enum 0 (locals_space f))
                 /\ find_param_or_local_def tb (key_of n0) = Some (local_symbol f (i, d))).
    { rewrite (find_local_def_spec src n0 w0 f) by (auto; now apply (enclosing_func src)).
      rewrite <- slot_find_target in Ht. destruct (find _ _) as [(i & d')|] eqn:E; [|discriminate].
      cbn in Ht. injection Ht as ->. exists i. split; [now apply find_some in E|reflexivity]. }
    destruct Hd as (i & Hi & Hf).
    exists (refs_of_local_ref incl tb x (local_symbol f (i, d))). split; [|split; [|split]].
    - unfold listed. cbn [x ref_sym s_kind s_key ref_kind]. now rewrite Hf.
    - apply NoDup_filter. apply raw_nodup.
    - intros y Hy. now apply filter_In in Hy.
    - intros n Tn Nn. split.
      + intros (y & Hy & St). unfold refs_of_local_ref in Hy. apply filter_In in Hy as [Hy Py].
        assert (Hslot : is_param_or_local y = true -> incl && is_defined_by (s_idx x) (s_idx y) && key_eqb (s_region y) (s_region x) = true ->
                  incl = true /\ local_denotes f w0 n).
        { intros K1 P. apply andb_prop in P as [P P3]. apply andb_prop in P as [P1 P2]. apply key_eqb_eq in P3.
          destruct (slot_out f y Tf Nf Kf Hy K1 P3) as (i' & d' & Hi' & ->). split; [exact P1|].
          assert (In d' (locals_space f)) as Hd' by (apply in_enum in Hi' as (j & Hj & _); now apply nth_error_In in Hj).
          destruct (slot_pointable src f d' Tf Kf Hd') as (Td & Nd & _).
          assert (n = d') as -> by (apply (key_inj src); auto; destruct St as [_ St]; now rewrite <- St).
          exact (proj1 (local_denotes_iff f i' d' w0 Hi') P2). }
        unfold is_param_or_local in Hslot. destruct (s_kind y) eqn:Ky; try discriminate; try (left; now apply Hslot).
        right. apply andb_prop in Py as [P1 P2]. apply key_eqb_eq in P2.
        destruct (local_ref_stands n f y Tn Nn Tf Nf Kf St Ky P2) as (w & A & W & M & ->).
        exists w. repeat (split; [assumption|]). exact (proj1 (local_denotes_iff f i d w Hi) P1).
      + intros [[-> De]|(w & A & W & M & De)].
        * assert (Hn : In n (locals_space f)).
          { destruct w0; [apply De|now apply nth_error_In in De]. }
          destruct (slot_found f n Tf Nf Kf Hn) as (j & Hj & Hr). exists (local_symbol f (j, n)).
          split; [|split; [exact Hr|reflexivity]]. unfold refs_of_local_ref. apply filter_In. split; [exact Hr|].
          assert (is_defined_by (s_idx x) (s_idx (local_symbol f (j, n))) = true) as X by exact (proj2 (local_denotes_iff f j n w0 Hj) De).
          rewrite X. change (s_region (local_symbol f (j, n))) with (key_of f). change (s_region x) with (key_of f).
          rewrite key_eqb_refl. destruct (local_kind f (j, n)) as [-> | ->]; reflexivity.
        * exists (ref_sym n f ALocal w). pose proof (local_ref_in n w f Tn Nn A W M Tf) as St.
          split; [|exact St]. unfold refs_of_local_ref. apply filter_In. split; [apply St|].
          cbn [ref_sym s_kind s_idx s_region ref_kind x]. rewrite key_eqb_refl, andb_true_r.
          exact (proj2 (local_denotes_iff f i d w Hi) De).
  Qed.

  (** ** Labels *)

  Lemma blocks_iff rk dk :
    (exists i, In (rk, dk, i) (blocks tb)) <->
    exists n w b, InTree tree n /\ is_node n = true /\ Asks n ALabel /\ Written n w /\ In b (direct_blocks n)
      /\ rk = key_of n /\ dk = key_of b.
  Proof.
    split.
    - intros (i & H). cbn [the_table blocks] in H. apply in_flat_map in H as ((id & e) & He & H).
      destruct (nodes_in _ _ _ He) as [Te Ne]. cbn [fst snd] in H. unfold node_blocks in H.
      destruct (is_br e) eqn:B; [|destruct H]. apply in_flat_map in H as (s & Hs & H).
      apply in_map_iff in H as (q & E & Hq). injection E as <- <- <-.
      assert (Hraw : In s (raw_symbols nodes)) by (apply raw_in; eauto).
      assert (Ks : s_kind s = SBlockRef).
      { rewrite br_symbols in Hs by exact B. unfold refs_in in Hs. destruct (enclosing _ _); [|destruct Hs].
        apply in_flat_map in Hs as (c & _ & Hs). now apply ref_symbol_kind in Hs. }
      assert (Hown : exists n, In n (children e) /\ s_key s = key_of n).
      { rewrite br_symbols in Hs by exact B. unfold refs_in in Hs. destruct (enclosing _ _); [|destruct Hs].
        apply in_flat_map in Hs as (c & Hc & Hs). apply in_ref_symbol in Hs as (? & _ & ->). exists c. auto. }
      destruct Hown as (n & Hn & En).
      assert (Tn : InTree tree n) by now apply (in_tree_child src) with e.
      assert (Nn : is_node n = true) by now apply child_node with e.
      destruct (ref_found src n s Tn Nn Hraw En) as (a & w & b0 & A & W & Eb & ->).
      { unfold is_ref_kind. now rewrite Ks. }
      cbn [ref_sym s_kind] in Ks. apply (ref_kind_inj a ALabel) in Ks as ->. cbn [enclosing_of] in Eb.
      assert (Ke : ekind e = PLAIN_INSTR).
      { unfold is_br in B. apply andb_prop in B as [K _]. now apply kind_eqb_eq in K. }
      unfold chain_at in Hq. rewrite <- (enclosing_operand src block_kinds n e) in Hq; auto; [|cbn; intuition discriminate].
      rewrite Eb in Hq. unfold levels in Hq. apply in_map_iff in Hq as (p & <- & Hp).
      exists n, w, (snd p). repeat (split; [assumption|]). split; [|split; [exact En|reflexivity]].
      rewrite direct_enclosing, Eb. rewrite <- (enum_snd 0 (while_block (ancestors b0))). now apply in_map.
    - intros (n & w & b & Tn & Nn & A & W & Hb & -> & ->).
      destruct (label_parent src n Tn Nn A) as (p & Pp & Bp).
      rewrite direct_enclosing in Hb. destruct (enclosing block_kinds n) as [b0|] eqn:Eb; [|destruct Hb].
      assert (Hf := filter_blocks src n p b0 Tn Nn Pp Bp).
      assert (Hi : ref_idx n <> None).
      { assert (ref_idx n = Some (widx w)) by (apply ref_idx_iff; eauto). congruence. }
      specialize (Hf Hi Eb).
      apply In_nth_error in Hb as (j & Hj).
      assert (Hin : In (N.of_nat j, b) (enum 0 (while_block (ancestors b0)))) by (apply in_enum; exists j; cbn; split; [exact Hj|lia]).
      exists (mk_idx (Some (N.of_nat j)) (ident_of b)).
      assert (X : In (key_of n, key_of b, mk_idx (Some (N.of_nat j)) (ident_of b))
                (filter (fun t => key_eqb (key_of n) (fst (fst t))) (blocks tb))).
      { rewrite Hf. apply in_map_iff. exists (level (N.of_nat j, b)). split; [reflexivity|]. unfold levels. now apply in_map. }
      now apply filter_In in X.
  Qed.

  (** Branches whose chain of blocks passes through [b]. *)
  Definition BranchUnder (n b : elem) : Prop :=
    Asks n ALabel /\ (exists w, Written n w) /\ In b (direct_blocks n).

  Lemma block_refs_spec incl b p : InTree tree b -> is_node b = true -> is_block b = true -> parent b = Some p ->
    let ss := block_refs incl tb (block_symbol p b) in
    (forall y, In y ss -> In y (raw_symbols nodes))
    /\ forall n, InTree tree n -> is_node n = true ->
         ((exists y, In y ss /\ stands n y) <-> (incl = true /\ n = b) \/ BranchUnder n b).
  Proof.
    intros T N B P. cbv zeta. pose proof (block_symbol_in src b p T N B P) as Hb.
    assert (Hin : forall y, In y (block_refs incl tb (block_symbol p b)) <->
       (incl = true /\ y = block_symbol p b)
       \/ exists n, InTree tree n /\ is_node n = true /\ BranchUnder n b /\ stands n y).
    { intros y. unfold block_refs. rewrite in_app_iff, in_flat_map. split.
      - intros [H|(((rk & dk) & i) & H & Hy)].
        + destruct incl; [|destruct H]. destruct H as [<-|[]]. auto.
        + right. destruct (key_eqb dk (s_key (block_symbol p b))) eqn:E; [|destruct Hy]. apply key_eqb_eq in E.
          destruct (find_key tb rk) as [s|] eqn:Es; [|destruct Hy]. destruct Hy as [<-|[]].
          apply find_key_in in Es as [Es1 Es2].
          destruct (proj1 (blocks_iff rk dk)) as (n & w & b' & Tn & Nn & A & W & Hd & -> & ->); [eauto|].
          destruct (direct_in src n b' Tn Nn Hd) as (Tb & Nb & _).
          assert (b' = b) as -> by (apply (key_inj src); auto).
          exists n. repeat (split; [assumption|]). split; [split; eauto|split; auto].
      - intros [[-> ->]|(n & Tn & Nn & (A & (w & W) & Hd) & Hs & Es)]; [left; now left|].
        right. destruct (proj2 (blocks_iff (key_of n) (key_of b))) as (i & Hi).
        { exists n, w, b. repeat (split; [assumption|]). auto. }
        exists (key_of n, key_of b, i). split; [exact Hi|]. cbn [block_symbol s_key]. rewrite key_eqb_refl.
        rewrite (find_key_stands n y (conj Hs Es)). now left. }
    split.
    - intros y Hy. apply Hin in Hy as [[_ ->]|(n & _ & _ & _ & Hs & _)]; auto.
    - intros n Tn Nn. split.
      + intros (y & Hy & St). apply Hin in Hy as [[-> ->]|(n' & Tn' & Nn' & Bu & St')].
        * left. split; [reflexivity|]. apply (key_inj src); auto. destruct St as [_ St]. now rewrite <- St.
        * right. assert (n = n') as -> by (apply (key_inj src); auto; destruct St, St'; congruence). exact Bu.
      + intros [[-> ->]|Bu].
        * exists (block_symbol p b). split; [apply Hin; auto|split; auto].
        * pose proof Bu as (A & (w & W) & Hd). rewrite direct_enclosing in Hd.
          destruct (enclosing block_kinds n) as [b0|] eqn:E; [|destruct Hd].
          assert (St : stands n (ref_sym n b0 ALabel w)) by (split; [now apply raw_ref_in|reflexivity]).
          exists (ref_sym n b0 ALabel w). split; [|exact St]. apply Hin. right. exists n. auto.
  Qed.
End Doc.
