(** Property C59, the rest of the document: writing another name into a
    reference changes nothing about where other references lead. *)

From Coq Require Import String List NArith Bool Arith Lia Permutation.
From Verif Require Import Text Kind Green SpecParser SpecSyntax Lexer LexerFacts Winnow Grammar Sem Lossless Total
  Bounds Lang TokForm Shape ThmParser ThmSyntax Red Unique LineIndex Cursor ThmPos Doc Ast Binder SpecBinder Nav NavSpec NavFacts Preorder BinderFacts BinderDefs Blocks RefFacts TokKinds ThmNav
  ThmRename Types Check CheckMsgs ThmCheck SemTok Hover SpecAction Action ThmAction ThmPrepare SpecRename ThmRenamed Completion SpecCompletion ThmCompletion SpecAlike Alike
  AlikeNav ThmGoto ThmAccept.
From Verif Require SpecComplete ThmComplete.
Import ListNotations.

(** ** The relation is symmetric *)

Lemma sim_sym : forall g g', Sim Any g g' -> Sim Any g' g.
Proof.
  induction g as [k t|k cs IH] using green_ind'; intros g' H; inversion H as [k0 t0 t0' Hk Ht E1 E2|k0 cs0 cs' HF E1 E2]; subst.
  - constructor; [exact Hk|]. destruct (kind_eqb k IDENT); [exact I|now symmetry].
  - constructor.
    assert (G : forall l l', Forall2 (Sim Any) l l' -> (forall c, In c l -> In c cs) -> Forall2 (Sim Any) l' l).
    { rewrite Forall_forall in IH. induction 1 as [|a b l l' Hab _ IHl]; intros Hin; constructor.
      - apply IH; [apply Hin; now left|exact Hab].
      - apply IHl. intros c Hc. apply Hin. now right. }
    apply (G _ _ HF). intros c Hc. now apply filter_In in Hc.
Qed.
Lemma R_sym T T' e e' : R Any T T' e e' -> R Any T' T e' e.
Proof.
  intros [A B C D]. constructor; auto; [now apply sim_sym|].
  clear - D. induction D as [|u u' l l' [H1 H2] _ IH]; constructor; auto. split; [now symmetry|now apply sim_sym].
Qed.

(** ** References *)

Section Asks.
  Variables (T T' : green).
  Notation R := (R Any T T').
  Lemma instr_T p p' l : R p p' -> named_instr p l -> named_instr p' l.
  Proof.
    intros H (K & u & Hu & Hin). split; [now rewrite <- (R_kind _ _ _ _ _ H)|].
    pose proof (R_token _ _ _ INSTR_NAME _ _ eq_refl H) as Ho. rewrite Hu in Ho. inversion Ho as [|? v Huv]; subst.
    exists v. split; [reflexivity|]. destruct (token_facts T p INSTR_NAME (R_in _ _ _ _ _ H) u Hu) as (_ & N & Ku & _).
    rewrite <- (R_text _ _ _ _ _ Huv); auto. congruence.
  Qed.
  Lemma asks_T n n' a : R n n' -> Asks n a -> Asks n' a.
  Proof.
    intros H A. assert (P : forall p, parent n = Some p -> exists p', parent n' = Some p' /\ R p p').
    { intros p Hp. pose proof (R_parent _ _ _ _ _ H) as Ho. rewrite Hp in Ho. inversion Ho as [|? p' Hpp]; subst. eauto. }
    assert (C : forall p p' k, R p p' -> child p k = Some n -> child p' k = Some n').
    { intros p p' k Hp Hc. pose proof (R_child _ _ _ k _ _ Hp) as Ho. rewrite Hc in Ho. inversion Ho as [|? c' Hcc]; subst. f_equal.
      eapply R_fun; eauto. }
    destruct A as [p Hp Hi|p Hp Hi|p Hp Hi|p r Hp Hi Hc|p Hp Hi|p Hp Hi|p Hp Hk Hc|p Hp Hk Hc|p Hp Hk Hc|p Hp Hk Hc];
      destruct (P p Hp) as (p' & Hp' & Hpp).
    - eapply Asks_call; eauto using instr_T.
    - eapply Asks_global; eauto using instr_T.
    - eapply Asks_table; eauto using instr_T.
    - pose proof (R_children _ _ _ _ _ Hpp) as HF. rewrite Hc in HF. inversion HF as [|? c' ? r' Hcc HF' E1 E2]; subst.
      assert (c' = n') as -> by (eapply R_fun; eauto). eapply Asks_init; eauto using instr_T.
    - eapply Asks_local; eauto using instr_T.
    - eapply Asks_label; eauto using instr_T.
    - eapply Asks_func_index; eauto. now rewrite <- (R_kind _ _ _ _ _ Hpp).
    - eapply Asks_type_index; eauto. now rewrite <- (R_kind _ _ _ _ _ Hpp).
    - eapply Asks_mem_index; eauto. now rewrite <- (R_kind _ _ _ _ _ Hpp).
    - eapply Asks_table_index; eauto. now rewrite <- (R_kind _ _ _ _ _ Hpp).
  Qed.
  Lemma enclosing_T a n n' : R n n' -> OptR R (enclosing_of a n) (enclosing_of a n').
  Proof.
    intros H. pose proof (R_ancestors _ _ _ _ _ H) as HF.
    assert (G : forall ks, OptR R (enclosing ks n) (enclosing ks n')).
    { intros ks. unfold enclosing. apply F2_find; [|exact HF]. intros u v Huv. now rewrite (R_kind _ _ _ _ _ Huv). }
    destruct a; apply G.
  Qed.
End Asks.

(** An answer comes from a reference. *)
Lemma goto_asks src pos t n resp : CursorOn src pos t -> parent t = Some n -> goto_definition src pos = Ans resp ->
  exists a w e, Asks n a /\ Written n w /\ enclosing_of a n = Some e.
Proof.
  intros C P H. destruct (cursor_node _ _ _ _ C P) as (_ & _ & T & N & _).
  destruct (kind_eqb (ekind n) OPERAND || kind_eqb (ekind n) INDEX) eqn:K.
  - rewrite (goto_start src pos t n C P K) in H.
    assert (Hs : exists s, In s (raw_symbols (nodes src)) /\ s_key s = key_of n /\ is_ref_kind s = true).
    { destruct (find_param_or_local_def (the_table src) (key_of n)) as [s|] eqn:E1.
      - unfold find_param_or_local_def, find_local_ref in E1.
        destruct (find _ _) as [l|] eqn:El in E1; [|discriminate].
        apply find_some in El as [El1 El2]. apply andb_prop in El2 as [El2 El3]. apply key_eqb_eq in El3.
        apply skind_eqb_eq in El2. exists l. split; [exact El1|]. split; [exact El3|]. unfold is_ref_kind. now rewrite El2.
      - clear E1. destruct (find_defs (the_table src) (key_of n)) as [ss|] eqn:E2.
        + unfold find_defs in E2. destruct (find_key (the_table src) (key_of n)) as [l|] eqn:El; [|discriminate].
          apply find_key_in in El as [El1 El2]. exists l. split; [exact El1|]. split; [exact El2|].
          unfold is_ref_kind. destruct (s_kind l); try discriminate; reflexivity.
        + clear E2. destruct (find_block_def (the_table src) (key_of n)) as [s|] eqn:E3; [|discriminate].
          unfold find_block_def, find_block_ref in E3. destruct (find _ (symbols _)) as [l|] eqn:El in E3; [|discriminate].
          apply find_some in El as [El1 El2]. apply andb_prop in El2 as [El2 El3]. apply key_eqb_eq in El3.
          apply skind_eqb_eq in El2. exists l. split; [exact El1|]. split; [exact El3|]. unfold is_ref_kind. now rewrite El2. }
    destruct Hs as (s & Hs1 & Hs2 & Hs3).
    destruct (ref_found src n s T N Hs1 Hs2 Hs3) as (a & w & e & A & W & E & _). eauto 6.
  - exfalso. unfold goto_definition, cursor_token in H. rewrite C in H. cbn [abind] in H. rewrite P in H. cbn [aopt abind] in H.
    rewrite K in H. discriminate.
Qed.

Section Others.
  Variables (tree : green) (D : Document tree) (t n : elem) (x : text) (a0 : asked).
  Hypothesis Hn : InTree tree n.
  Hypothesis Nn : is_node n = true.
  Hypothesis Ht : token n IDENT = Some t.
  Hypothesis Vx : ValidName x.
  Hypothesis Ha : Asks n a0.
  Notation new := (written_at (estart t) x tree).
  Notation R := (R Any tree new).

  Lemma tree_old : tree_of (gtext tree) = tree.
  Proof. now apply document_tree. Qed.
  Lemma tree_new : tree_of (gtext new) = new.
  Proof. apply document_tree. now apply new_document. Qed.

  Lemma def_other m d : In d (definitions m) -> d <> n.
  Proof.
    intros Hd ->. apply filter_In in Hd as [_ Hd]. unfold is_def, def_sort in Hd.
    destruct (n_kind tree D n Hn Nn a0 Ha) as [K|K]; rewrite K in Hd; discriminate.
  Qed.
  Lemma block_other n2 d : In d (direct_blocks n2) -> d <> n.
  Proof.
    intros Hd ->. assert (B : is_block n = true).
    { unfold direct_blocks in Hd. destruct (find is_block (ancestors n2)) as [b|]; [|destruct Hd]. revert Hd. generalize (ancestors b).
      induction l as [|u l IH]; cbn [while_block]; [intros []|]. destruct (is_block u) eqn:E; [|intros []]. intros [->|Hd]; auto. }
    unfold is_block in B. destruct (n_kind tree D n Hn Nn a0 Ha) as [K|K]; rewrite K in B; discriminate.
  Qed.
  Lemma definitions_all m m' : R m m' -> is_node m = true -> Forall2 R (definitions m) (definitions m').
  Proof.
    intros H N. apply F2_filter; [|now apply R_descendants]. intros u v Huv. unfold is_def, def_sort. now rewrite (R_kind _ _ _ _ _ Huv).
  Qed.
  Lemma nth_R l l' k : Forall2 R l l' -> OptR R (nth_error l k) (nth_error l' k).
  Proof. intros H. revert k. induction H as [|u v l l' Huv _ IH]; intros [|k]; cbn; try constructor; auto. Qed.

  Lemma written_else n2 n2' w : R n2 n2' -> n2 <> n -> (Written n2 w <-> Written n2' w).
  Proof.
    intros H Ne. pose proof (name_else tree D t n x Hn Ht n2 n2' H Ne) as Ho.
    assert (H2 : Alike.R Any (tree_of (gtext tree)) (tree_of (gtext new)) n2 n2') by (rewrite tree_old, tree_new; exact H).
    pose proof (tokens_int Any (gtext tree) (gtext new) n2 n2' H2) as Hi. cbn beta in Hi.
    split; intros W; inversion W as [y Hy E|y k Hy Hf Dy E]; subst; rewrite Hy in Ho; inversion Ho as [E1 E2|a b [Hab Eab] E1 E2]; subst.
    - rewrite <- Eab. apply Written_name. now symmetry.
    - rewrite Hf in Hi. destruct (find _ (tokens n2')) as [v|] eqn:Hf'; [|discriminate Hi]. cbn in Hi.
      eapply Written_num; [now symmetry|exact Hf'|congruence].
    - rewrite Eab. apply Written_name. now symmetry.
    - rewrite Hf in Hi. destruct (find _ (tokens n2)) as [v|] eqn:Hf'; [|discriminate Hi]. cbn in Hi.
      eapply Written_num; [now symmetry|exact Hf'|congruence].
  Qed.

  Lemma same_place d d' r r' : R d d' -> Shows (gtext tree) r d -> Shows (gtext new) r' d' -> SamePlace (gtext tree) (gtext new) r r'.
  Proof.
    intros H S S'. exists (shown d), (shown d'). split; [|split; [exact S|exact S']].
    assert (H2 : Alike.R Any (tree_of (gtext tree)) (tree_of (gtext new)) d d') by (rewrite tree_old, tree_new; exact H).
    apply R_shown in H2. clear H. now apply R_counterpart in H2.
  Qed.
  Lemma same_places ds ds' rs rs' : Forall2 R ds ds' -> Forall2 (Shows (gtext tree)) rs ds -> Forall2 (Shows (gtext new)) rs' ds' ->
    Forall2 (SamePlace (gtext tree) (gtext new)) rs rs'.
  Proof.
    intros H. revert rs rs'. induction H as [|d d' ds ds' Hd _ IH]; intros rs rs' F F'; inversion F; inversion F'; subst; constructor; auto.
    eapply same_place; eauto.
  Qed.

  Variables (u u' n2 : elem) (pos pos' : nat * nat).
  Hypothesis Hc : Counterpart tree new u u'.
  Hypothesis Cu : CursorOn (gtext tree) pos u.
  Hypothesis Cu' : CursorOn (gtext new) pos' u'.
  Hypothesis Pu : parent u = Some n2.
  Hypothesis Ne : n2 <> n.

  Lemma related n2' a w e e' : R n2 n2' -> parent u' = Some n2' -> Asks n2 a -> Asks n2' a -> Written n2 w -> Written n2' w ->
    enclosing_of a n2 = Some e -> enclosing_of a n2' = Some e' -> R e e' ->
    AnsR (SameResponse (gtext tree) (gtext new)) (goto_definition (gtext tree) pos) (goto_definition (gtext new) pos').
  Proof.
    intros Rn Pu' A A' W W' E E' Re.
    destruct (cursor_node _ _ _ _ Cu Pu) as (_ & _ & T2 & N2 & _). destruct (cursor_node _ _ _ _ Cu' Pu') as (_ & _ & T2' & N2' & _).
    destruct a as [s| |]; cbn [enclosing_of] in E, E'.
    - apply enclosing_some in E as [Ea [Ek|[]]]. destruct (ancestor_node (gtext tree) _ _ T2 N2 Ea) as (Te & De & Nm).
      apply enclosing_some in E' as [Ea' [Ek'|[]]]. destruct (ancestor_node (gtext new) _ _ T2' N2' Ea') as (Te' & De' & Nm').
      assert (M : in_module n2 e) by (split; [now symmetry|split; auto]). assert (M' : in_module n2' e') by (split; [now symmetry|split; auto]).
      destruct w as [y|k].
      + destruct (C13_named_definitions _ pos u n2 s y e Cu Pu A W M Te) as (rs & -> & F).
        destruct (C13_named_definitions _ pos' u' n2' s y e' Cu' Pu' A' W' M' Te') as (rs' & -> & F').
        constructor. constructor. eapply same_places; [|exact F|exact F'].
        apply F2_filter_in; [now apply definitions_R|]. intros d d' Hd Rd. apply (has_name_else tree D t n x Hn Ht); [exact Rd|]. eapply def_not_n; eauto.
      + destruct (C14_counts_all_definitions _ pos u n2 s k e Cu Pu A W M Te) as (rs & -> & F).
        destruct (C14_counts_all_definitions _ pos' u' n2' s k e' Cu' Pu' A' W' M' Te') as (rs' & -> & F').
        constructor. constructor. eapply same_places; [|exact F|exact F'].
        destruct (nth_R _ _ (N.to_nat k) (definitions_all e e' Re Nm)) as [|d d' Rd]; [constructor|].
        unfold has_sort, def_sort. rewrite (R_kind _ _ _ _ _ Rd). destruct (match _ with Some _ => _ | None => _ end); constructor; auto.
    - apply enclosing_some in E as [Ea [Ek|[]]]. destruct (ancestor_node (gtext tree) _ _ T2 N2 Ea) as (Te & De & Nm).
      apply enclosing_some in E' as [Ea' [Ek'|[]]]. destruct (ancestor_node (gtext new) _ _ T2' N2' Ea') as (Te' & De' & Nm').
      assert (M : in_func n2 e) by (split; [now symmetry|split; auto]). assert (M' : in_func n2' e') by (split; [now symmetry|split; auto]).
      pose proof (C15_locals _ pos u n2 w e Cu Pu A W M Te) as G. pose proof (C15_locals _ pos' u' n2' w e' Cu' Pu' A' W' M' Te') as G'.
      assert (Ho : OptR R (local_target e w) (local_target e' w)).
      { destruct w as [y|k]; cbn [local_target]; [|now apply nth_R, locals_R].
        apply F2_find_in; [now apply locals_R|]. intros d d' Hd Rd. apply (slot_has_name_else tree D t n x Hn Ht); [exact Rd|]. eapply slot_not_n; eauto. }
      destruct Ho as [|d d' Rd]; [rewrite G, G'; constructor|]. destruct G as (r & -> & S), G' as (r' & -> & S').
      constructor. constructor. eapply same_place; eauto.
    - pose proof (C16_labels _ pos u n2 w Cu Pu A W) as G. pose proof (C16_labels _ pos' u' n2' w Cu' Pu' A' W') as G'.
      assert (Ho : OptR R (label_target (direct_blocks n2) w) (label_target (direct_blocks n2') w)).
      { destruct w as [y|k]; cbn [label_target]; [|now apply nth_R, blocks_R].
        apply F2_find_in; [now apply blocks_R|]. intros d d' Hd Rd. apply (has_name_else tree D t n x Hn Ht); [exact Rd|]. eapply block_other; eauto. }
      destruct Ho as [|d d' Rd]; [rewrite G, G'; constructor|]. destruct G as (r & -> & S), G' as (r' & -> & S').
      constructor. constructor. eapply same_place; eauto.
  Qed.

  Lemma others : AnsR (SameResponse (gtext tree) (gtext new)) (goto_definition (gtext tree) pos) (goto_definition (gtext new) pos').
  Proof.
    pose proof (counterpart_R Any tree new (sim_new tree D t n x Hn) u u' Hc) as Ru.
    pose proof (R_parent _ _ _ _ _ Ru) as Ho. rewrite Pu in Ho. inversion Ho as [|? n2' Rn E1 Pu']; subst. symmetry in Pu'.
    pose proof (goto_no_panic _ pos u n2 Cu Pu) as NP. pose proof (goto_no_panic _ pos' u' n2' Cu' Pu') as NP'.
    assert (Back : forall a w e, Asks n2 a -> Written n2 w -> enclosing_of a n2 = Some e ->
      AnsR (SameResponse (gtext tree) (gtext new)) (goto_definition (gtext tree) pos) (goto_definition (gtext new) pos')).
    { intros a w e A W E. pose proof (enclosing_T tree new a n2 n2' Rn) as Oe. rewrite E in Oe. inversion Oe as [|? e' Re E1 E2]; subst.
      symmetry in E2. eapply (related n2' a w e e'); eauto; [eapply asks_T; eauto|now apply (written_else n2 n2' w Rn Ne)]. }
    destruct (goto_definition (gtext tree) pos) as [resp| |] eqn:G; [|destruct (goto_definition (gtext new) pos') as [resp'| |] eqn:G'|congruence].
    - destruct (goto_asks _ pos u n2 resp Cu Pu G) as (a & w & e & A & W & E). eauto.
    - destruct (goto_asks _ pos' u' n2' resp' Cu' Pu' G') as (a & w & e' & A' & W' & E').
      pose proof (R_sym _ _ _ _ Rn) as Rn'. pose proof (enclosing_T new tree a n2' n2 Rn') as Oe. rewrite E' in Oe. inversion Oe as [|? e Re E1 E2]; subst.
      symmetry in E2. eapply (Back a w e); eauto; [eapply asks_T; eauto|now apply (written_else n2 n2' w Rn Ne)].
    - constructor.
    - congruence.
  Qed.
End Others.

(** The cursor is on a token outside the reference [n] whose identifier [t]
    becomes [x]: go to definition leads to the same places before and after. *)
Theorem C59_others tree n t x a u u' pos pos' :
  Document tree -> InTree tree n -> is_node n = true -> token n IDENT = Some t -> Asks n a -> ValidName x ->
  let new := written_at (estart t) x tree in
  CursorOn (gtext tree) pos u -> CursorOn (gtext new) pos' u' -> Counterpart tree new u u' -> parent u <> Some n ->
  AnsR (SameResponse (gtext tree) (gtext new)) (goto_definition (gtext tree) pos) (goto_definition (gtext new) pos').
Proof.
  intros D Hn Nn Ht A Vx new C C' Hc Ne. destruct (parent u) as [n2|] eqn:P.
  - eapply (others tree D t n x a Hn Nn Ht Vx A u u' n2); eauto. congruence.
  - pose proof (counterpart_R Any tree new (sim_new tree D t n x Hn) u u' Hc) as Ru.
    pose proof (R_parent _ _ _ _ _ Ru) as Ho. rewrite P in Ho. inversion Ho as [E1 P'|]. symmetry in P'.
    unfold goto_definition, cursor_token. rewrite C, C'. cbn [abind]. rewrite P, P'. constructor.
Qed.

(** Writing [$f] instead of [$second] into the first call: the second call
    still leads to the function [$second], now further left. *)
Definition others_ex : text := Text.T "(module (func $f (call $second) (call $second)) (func $second))".
Example C59_others_case : let t := cur others_ex (0, 25) in let u := cur others_ex (0, 40) in
  let new := written_at (estart t) (Text.T "$f") (tree_of others_ex) in
  Document (tree_of others_ex) /\ gtext (tree_of others_ex) = others_ex /\ InTree (tree_of others_ex) (par t) /\ token (par t) IDENT = Some t
  /\ Asks (par t) (AModule FuncS)
  /\ gtext new = Text.T "(module (func $f (call $f) (call $second)) (func $second))"
  /\ CursorOn others_ex (0, 40) u /\ parent u <> Some (par t)
  /\ (exists u', CursorOn (gtext new) (0, 35) u' /\ Counterpart (tree_of others_ex) new u u')
  /\ goto_definition others_ex (0, 40) = Ans (Array [((0, 54), (0, 61))])
  /\ goto_definition (gtext new) (0, 35) = Ans (Array [((0, 49), (0, 56))]).
Proof.
  intros t u new. split; [apply ThmComplete.documentb_ok; vm_compute; reflexivity|]. split; [vm_compute; reflexivity|].
  assert (C : CursorOn others_ex (0, 25) t) by (vm_compute; reflexivity). assert (Cu : CursorOn others_ex (0, 40) u) by (vm_compute; reflexivity).
  pose proof C as C2. apply meaningful_in in C2 as (x & _ & (T & N) & _). destruct (token_parent _ t T N) as (p & P & Tp & _).
  assert (Ep : p = par t) by (unfold par; now rewrite P). subst p.
  split; [exact Tp|]. split; [vm_compute; reflexivity|]. split; [by_instr Asks_call (par t)|]. split; [vm_compute; reflexivity|].
  split; [exact Cu|]. split.
  { intros E. assert (F : match parent u with Some p => estart p | None => 0 end = match Some (par t) with Some p => estart p | None => 0 end) by (now rewrite E).
    vm_compute in F. discriminate F. }
  split; [|split; vm_compute; reflexivity].
  assert (En : tree_of (gtext new) = new) by (vm_compute; reflexivity).
  exists (cur (gtext new) (0, 35)).
  assert (Cn : CursorOn (gtext new) (0, 35) (cur (gtext new) (0, 35))) by (vm_compute; reflexivity). split; [exact Cn|].
  apply meaningful_in in Cu as (? & _ & (Tu & _) & _). split; [exact Tu|].
  apply meaningful_in in Cn as (? & _ & (T' & N') & _). rewrite En in T'. split; [exact T'|].
  repeat split; vm_compute; reflexivity.
Qed.

(** ** Undefined names *)

Section Undefined.
  Variables (tree : green) (D : Document tree) (t n : elem) (x : text) (a0 : asked).
  Hypothesis Hn : InTree tree n.
  Hypothesis Nn : is_node n = true.
  Hypothesis Ht : token n IDENT = Some t.
  Hypothesis Vx : ValidName x.
  Hypothesis Ha : Asks n a0.
  Notation new := (written_at (estart t) x tree).
  Notation R := (R Any tree new).

  Lemma around_T T T' e e' m k : Alike.R Any T T' e e' -> Desc m e -> is_node m = true -> ekind m = k ->
    exists m', Alike.R Any T T' m m' /\ InTree T' m' /\ Desc m' e' /\ is_node m' = true /\ ekind m' = k.
  Proof.
    intros H Dm Nm Km. pose proof (R_ancestors _ _ _ _ _ H) as HF. apply Desc_ancestors in Dm.
    destruct (F2_in_l _ _ _ m HF Dm) as (m' & Hin & Hm). exists m'. split; [exact Hm|].
    destruct (ancestors_Desc T' m' e' (R_in' _ _ _ _ _ H) Hin) as [I1 I2]. repeat split; auto.
    - now rewrite <- (R_is_node _ _ _ _ _ Hm).
    - now rewrite <- (R_kind _ _ _ _ _ Hm).
  Qed.
  Lemma nth_F2 (l l' : list elem) k : Forall2 R l l' ->
    forall v, nth_error l' k = Some v -> exists u, nth_error l k = Some u /\ R u v.
  Proof. intros H v Hv. pose proof (nth_R tree t x l l' k H) as Ho. rewrite Hv in Ho. inversion Ho as [|u ? Huv E]; subst. eauto. Qed.
  Lemma nth_F2' (l l' : list elem) k : Forall2 R l l' ->
    forall u, nth_error l k = Some u -> exists v, nth_error l' k = Some v /\ R u v.
  Proof. intros H u Hu. pose proof (nth_R tree t x l l' k H) as Ho. rewrite Hu in Ho. inversion Ho as [|? v Huv E]; subst. eauto. Qed.

  Lemma denotes_else s m m' w d d' : R m m' -> is_node m = true -> R d d' -> In d (definitions_of s m) ->
    (denotes m w d <-> denotes m' w d').
  Proof.
    intros Hm Nm Hd Hin. destruct w as [y|k]; cbn [denotes].
    - rewrite (has_name_else tree D t n x Hn Ht y d d' Hd); [tauto|]. eapply def_not_n; eauto.
    - pose proof (definitions_all tree t x m m' Hm Nm) as HF. split; intros H.
      + destruct (nth_F2' _ _ _ HF _ H) as (v & -> & Hv). f_equal. eapply R_fun; eauto.
      + destruct (nth_F2 _ _ _ HF _ H) as (v & -> & Hv). f_equal. apply R_sym in Hv, Hd. eapply R_fun; eauto.
  Qed.
  Lemma local_denotes_else f f' w : R f f' -> (exists d, local_denotes f w d) <-> (exists d, local_denotes f' w d).
  Proof.
    intros Hf. pose proof (locals_R tree t x f f' Hf) as HF. destruct w as [y|k]; cbn [local_denotes]; split; intros (d & H).
    - destruct H as [H1 H2]. destruct (F2_in_l _ _ _ d HF H1) as (d' & I & Rd). exists d'. split; [exact I|].
      rewrite <- (slot_has_name_else tree D t n x Hn Ht y d d' Rd); [exact H2|]. eapply slot_not_n; eauto.
    - destruct H as [H1 H2]. destruct (F2_in_r _ _ _ d HF H1) as (d0 & I & Rd). exists d0. split; [exact I|].
      rewrite (slot_has_name_else tree D t n x Hn Ht y d0 d Rd); [exact H2|]. eapply slot_not_n; eauto.
    - destruct (nth_F2' _ _ _ HF _ H) as (v & Hv & _). eauto.
    - destruct (nth_F2 _ _ _ HF _ H) as (v & Hv & _). eauto.
  Qed.
  Lemma label_else n2 n2' w : R n2 n2' -> (label_target (direct_blocks n2) w = None <-> label_target (direct_blocks n2') w = None).
  Proof.
    intros H. assert (Ho : OptR R (label_target (direct_blocks n2) w) (label_target (direct_blocks n2') w)).
    { destruct w as [y|k]; cbn [label_target]; [|now apply nth_R, blocks_R].
      apply F2_find_in; [now apply blocks_R|]. intros d d' Hd Rd. apply (has_name_else tree D t n x Hn Ht); [exact Rd|]. eapply block_other; eauto. }
    destruct Ho; split; congruence.
  Qed.

  Lemma unresolved_else n2 n2' w : R n2 n2' -> (Unresolved (gtext tree) n2 w <-> Unresolved (gtext new) n2' w).
  Proof.
    intros H. pose proof (R_sym _ _ _ _ H) as H'. pose proof (tree_old tree D) as Eo. pose proof (tree_new tree D t x Vx) as En.
    split; intros [s m A (Km & Nm & Dm) Tm U|f A (Kf & Nf & Df) Tf U|b A B1 B2 U].
    - destruct (around_T _ _ _ _ m MODULE H Dm Nm Km) as (m' & Rm & Tm' & Dm' & Nm' & Km').
      eapply (U_module _ _ _ s m'); [eapply asks_T; eauto|repeat split; auto|now rewrite En|].
      intros d' Hd' Hx. destruct (F2_in_r _ _ _ d' (definitions_R tree t x s m m' Rm Nm) Hd') as (d & Hd & Rd).
      apply (U d Hd). now apply (denotes_else s m m' w d d' Rm Nm Rd Hd).
    - destruct (around_T _ _ _ _ f _ H Df Nf Kf) as (f' & Rf & Tf' & Df' & Nf' & Kf').
      eapply (U_local _ _ _ f'); [eapply asks_T; eauto|repeat split; auto|now rewrite En|].
      intros d' Hd'. destruct (proj2 (local_denotes_else f f' w Rf) (ex_intro _ d' Hd')) as (d & Hd). eapply U; eauto.
    - destruct (F2_in_l _ _ _ b (R_ancestors _ _ _ _ _ H) B1) as (b' & B1' & Rb).
      eapply (U_label _ _ _ b'); [eapply asks_T; eauto|exact B1'|unfold is_block in *; now rewrite <- (R_kind _ _ _ _ _ Rb)|].
      now apply (label_else n2 n2' w H).
    - destruct (around_T _ _ _ _ m MODULE H' Dm Nm Km) as (m' & Rm & Tm' & Dm' & Nm' & Km'). apply R_sym in Rm.
      eapply (U_module _ _ _ s m'); [eapply asks_T; eauto|repeat split; auto|now rewrite Eo|].
      intros d Hd Hx. destruct (F2_in_l _ _ _ d (definitions_R tree t x s m' m Rm Nm') Hd) as (d' & Hd' & Rd).
      apply (U d' Hd'). now apply (denotes_else s m' m w d d' Rm Nm' Rd Hd).
    - destruct (around_T _ _ _ _ f _ H' Df Nf Kf) as (f' & Rf & Tf' & Df' & Nf' & Kf'). apply R_sym in Rf.
      eapply (U_local _ _ _ f'); [eapply asks_T; eauto|repeat split; auto|now rewrite Eo|].
      intros d Hd. destruct (proj1 (local_denotes_else f' f w Rf) (ex_intro _ d Hd)) as (d' & Hd'). eapply U; eauto.
    - destruct (F2_in_l _ _ _ b (R_ancestors _ _ _ _ _ H') B1) as (b' & B1' & Rb).
      eapply (U_label _ _ _ b'); [eapply asks_T; eauto|exact B1'|unfold is_block in *; now rewrite <- (R_kind _ _ _ _ _ Rb)|].
      now apply (label_else n2 n2' w H).
  Qed.

  Lemma sig_node e : is_node e = true -> sigE e = true.
  Proof. unfold is_node, sigE. destruct (el e); [discriminate|reflexivity]. Qed.
  Lemma same_range e e' r r' : R e e' -> RangeOf (gtext tree) e r -> RangeOf (gtext new) e' r' -> SamePlace (gtext tree) (gtext new) r r'.
  Proof.
    intros H H1 H2. exists e, e'. split; [|auto]. rewrite tree_old, tree_new by assumption. exact (R_counterpart Any _ _ _ _ H).
  Qed.

  Lemma undefined_else ds ds' : check (gtext tree) = Ans ds -> check (gtext new) = Ans ds' ->
    (forall d, In d ds -> classify (d_message d) = CUndef -> ~ RangeOf (gtext tree) n (d_range d) ->
      exists d', In d' ds' /\ SameDiagnostic (gtext tree) (gtext new) d d')
    /\ (forall d' n', In d' ds' -> classify (d_message d') = CUndef -> R n n' -> ~ RangeOf (gtext new) n' (d_range d') ->
      exists d, In d ds /\ SameDiagnostic (gtext tree) (gtext new) d d').
  Proof.
    intros C C'. pose proof (tree_old tree D) as Eo. pose proof (tree_new tree D t x Vx) as En. split.
    - intros d Hd K Nr. destruct (proj1 (C19_undefined_exact _ ds d C) (conj Hd K)) as (n2 & w & T2 & N2 & W & U & Rg & M & Rl).
      rewrite Eo in T2. assert (Ne : n2 <> n) by (intros ->; auto).
      destruct (R_total Any tree new (sim_new tree D t n x Hn) n2 T2 (sig_node _ N2)) as (n2' & H).
      assert (T2' : InTree (tree_of (gtext new)) n2') by (rewrite En; apply H).
      destruct (range_of_ok _ _ T2') as (r' & _ & Rg'). exists (mk_diag r' (cannot_find w) None). split.
      + apply (C19_undefined_exact _ ds' _ C'). exists n2', w. cbn [d_range d_message d_related].
        split; [exact T2'|]. split; [now rewrite <- (R_is_node _ _ _ _ _ H)|]. split; [now apply (written_else tree D t n x Hn Ht Vx n2 n2' w H Ne)|].
        split; [now apply (unresolved_else n2 n2' w H)|auto].
      + split; [|cbn [d_range d_message d_related]; rewrite Rl; auto]. eapply same_range; eauto.
    - intros d' n' Hd K Rn Nr. destruct (proj1 (C19_undefined_exact _ ds' d' C') (conj Hd K)) as (n2' & w & T2' & N2' & W & U & Rg & M & Rl).
      rewrite En in T2'. destruct (R_total Any new tree (sim_sym _ _ (sim_new tree D t n x Hn)) n2' T2' (sig_node _ N2')) as (n2 & H').
      pose proof (R_sym _ _ _ _ H') as H.
      assert (Ne : n2 <> n) by (intros ->; assert (n2' = n') as -> by (eapply R_fun; eauto); auto).
      assert (T2 : InTree (tree_of (gtext tree)) n2) by (rewrite Eo; apply H).
      destruct (range_of_ok _ _ T2) as (r & _ & Rg'). exists (mk_diag r (cannot_find w) None). split.
      + apply (C19_undefined_exact _ ds _ C). exists n2, w. cbn [d_range d_message d_related].
        split; [exact T2|]. split; [now rewrite (R_is_node _ _ _ _ _ H)|]. split; [now apply (written_else tree D t n x Hn Ht Vx n2 n2' w H Ne)|].
        split; [now apply (unresolved_else n2 n2' w H)|auto].
      + split; [|cbn [d_range d_message d_related]; rewrite Rl; auto]. eapply same_range; eauto.
  Qed.
End Undefined.

(** The undefined names reported outside of [n] are the same before and after. *)
Theorem C59_others_reported tree n t x a n' ds ds' :
  Document tree -> InTree tree n -> is_node n = true -> token n IDENT = Some t -> Asks n a -> ValidName x ->
  let new := written_at (estart t) x tree in
  Counterpart tree new n n' -> check (gtext tree) = Ans ds -> check (gtext new) = Ans ds' ->
  (forall d, In d ds -> classify (d_message d) = CUndef -> ~ RangeOf (gtext tree) n (d_range d) ->
    exists d', In d' ds' /\ SameDiagnostic (gtext tree) (gtext new) d d')
  /\ (forall d', In d' ds' -> classify (d_message d') = CUndef -> ~ RangeOf (gtext new) n' (d_range d') ->
    exists d, In d ds /\ SameDiagnostic (gtext tree) (gtext new) d d').
Proof.
  intros D Hn Nn Ht A Vx new Hc C C'. destruct (undefined_else tree D t n x a Hn Nn Ht Vx A ds ds' C C') as [F B].
  split; [exact F|]. intros d' Hd K. apply (B d' n' Hd K). eapply counterpart_R; eauto. apply (sim_new tree D t n x Hn).
Qed.

(** A name that is not defined, elsewhere: it stays reported, and a report is
    added on the reference itself. *)
Definition gone_ex : text := Text.T "(module (func $f (call $f) (call $gone)))".
Example C59_others_reported_case : let t := cur gone_ex (0, 24) in let new := written_at (estart t) (Text.T "$other") (tree_of gone_ex) in
  Document (tree_of gone_ex) /\ gtext (tree_of gone_ex) = gone_ex /\ InTree (tree_of gone_ex) (par t) /\ token (par t) IDENT = Some t
  /\ Asks (par t) (AModule FuncS)
  /\ report gone_ex = Some [(((0, 33), (0, 38)), Text.T "cannot find `$gone` in this scope")]
  /\ report (gtext new) = Some [(((0, 23), (0, 29)), Text.T "cannot find `$other` in this scope");
       (((0, 37), (0, 42)), Text.T "cannot find `$gone` in this scope")].
Proof.
  intros t new. split; [apply ThmComplete.documentb_ok; vm_compute; reflexivity|]. split; [vm_compute; reflexivity|].
  assert (C : CursorOn gone_ex (0, 24) t) by (vm_compute; reflexivity).
  pose proof C as C2. apply meaningful_in in C2 as (x & _ & (T & N) & _). destruct (token_parent _ t T N) as (p & P & Tp & _).
  assert (Ep : p = par t) by (unfold par; now rewrite P). subst p.
  split; [exact Tp|]. split; [vm_compute; reflexivity|]. split; [by_instr Asks_call (par t)|]. split; vm_compute; reflexivity.
Qed.
