(** Completion (C36). *)

From Coq Require Import String List NArith Bool Arith Lia Sorted DecimalString DecimalN DecimalFacts.
From Verif Require Import Text Kind Green SpecParser Lexer LexerFacts Winnow Grammar Sem Lossless Total
  Bounds Lang TokForm Shape ThmParser Red Unique LineIndex ThmTree Cursor ThmPos Doc Ast Binder Preorder SpecBinder BinderFacts
  BinderDefs Blocks Nav NavSpec NavFacts ThmNav RefFacts ThmRefs SymCases TokKinds InstrMeta Types Check CheckFacts
  CheckMsgs ThmCheck ThmDup SpecTypes SigFacts SpecHeader HeaderFacts Counts SemTok Features ThmStructure Hover SpecHover HoverFacts
  SpecSyntax InstrNames Completion SpecCompletion.
Import ListNotations.

(** ** Digits *)


Lemma digits_acc d : forall p,
  fold_left (fun a c => (a * 10 + (c - 48))%N) (Text.T (NilEmpty.string_of_uint d)) (Npos p) = Npos (Pos.of_uint_acc d p).
Proof.
  induction d as [|d IH|d IH|d IH|d IH|d IH|d IH|d IH|d IH|d IH|d IH]; intros p; [reflexivity|..]; cbn [NilEmpty.string_of_uint Pos.of_uint_acc Text.T fold_left];
    rewrite <- IH; f_equal; match goal with |- context[Ascii.N_of_ascii ?a] => let x := eval vm_compute in (Ascii.N_of_ascii a) in change (Ascii.N_of_ascii a) with x end; lia.
Qed.
Lemma digits_zero d : fold_left (fun a c => (a * 10 + (c - 48))%N) (Text.T (NilEmpty.string_of_uint d)) 0%N = Pos.of_uint d.
Proof.
  induction d as [|d IH|d IH|d IH|d IH|d IH|d IH|d IH|d IH|d IH|d IH]; [reflexivity|..]; cbn [NilEmpty.string_of_uint Pos.of_uint Text.T fold_left]; [exact IH|..];
    rewrite <- digits_acc; reflexivity.
Qed.
Lemma digits_range d : Forall (fun c => (48 <= c <= 57)%N) (Text.T (NilEmpty.string_of_uint d)).
Proof.
  induction d as [|d IH|d IH|d IH|d IH|d IH|d IH|d IH|d IH|d IH|d IH]; cbn [NilEmpty.string_of_uint Text.T]; constructor;
    try exact IH; cbv; split; discriminate.
Qed.
Lemma nzhead_no_zero d : match Decimal.nzhead d with Decimal.D0 _ => False | _ => True end.
Proof. induction d; cbn; auto. Qed.
Lemma digits_show n : Digits10 n (show_N n).
Proof.
  unfold show_N, Digits10. pose proof (Unsigned.of_to n) as E. pose proof (Unsigned.to_of (N.to_uint n)) as U. rewrite E in U.
  unfold NilZero.string_of_uint. destruct (N.to_uint n) as [|d|d|d|d|d|d|d|d|d|d] eqn:D;
    match goal with |- context[match Decimal.Nil with _ => _ end] => idtac | _ => idtac end.
  - exfalso. clear -U. unfold Decimal.unorm in U. cbn in U. discriminate.
  - assert (Z : Decimal.D0 d = Decimal.D0 Decimal.Nil).
    { rewrite U. unfold Decimal.unorm in *. pose proof (nzhead_no_zero (Decimal.D0 d)). destruct (Decimal.nzhead (Decimal.D0 d)); try discriminate; try contradiction; reflexivity. }
    injection Z as ->. cbn in E. subst n. repeat split; try discriminate.
    + repeat constructor; cbv; discriminate.
    + intros r H. now injection H as <-.
  - repeat split; try discriminate; [apply (digits_range (Decimal.D1 d))|rewrite <- E; exact (digits_zero (Decimal.D1 d))].
  - repeat split; try discriminate; [apply (digits_range (Decimal.D2 d))|rewrite <- E; exact (digits_zero (Decimal.D2 d))].
  - repeat split; try discriminate; [apply (digits_range (Decimal.D3 d))|rewrite <- E; exact (digits_zero (Decimal.D3 d))].
  - repeat split; try discriminate; [apply (digits_range (Decimal.D4 d))|rewrite <- E; exact (digits_zero (Decimal.D4 d))].
  - repeat split; try discriminate; [apply (digits_range (Decimal.D5 d))|rewrite <- E; exact (digits_zero (Decimal.D5 d))].
  - repeat split; try discriminate; [apply (digits_range (Decimal.D6 d))|rewrite <- E; exact (digits_zero (Decimal.D6 d))].
  - repeat split; try discriminate; [apply (digits_range (Decimal.D7 d))|rewrite <- E; exact (digits_zero (Decimal.D7 d))].
  - repeat split; try discriminate; [apply (digits_range (Decimal.D8 d))|rewrite <- E; exact (digits_zero (Decimal.D8 d))].
  - repeat split; try discriminate; [apply (digits_range (Decimal.D9 d))|rewrite <- E; exact (digits_zero (Decimal.D9 d))].
Qed.

(** ** The token before the cursor *)

Lemma numbered_enum l : forall i, numbered i l = enum i l.
Proof. induction l as [|d l IH]; intros i; cbn; [reflexivity|]. now rewrite IH. Qed.

Section Doc.
  Variable src : text.
  Notation tree := (tree_of src).
  Notation nodes := (nodes src).
  Notation tb := (the_table src).

  Lemma find_token_panics pos : find_token src pos = Panics
    <-> exists x, offset (new_line_index src) pos = Some x /\ tlen (gtext tree) < x.
  Proof.
    rewrite <- (C39_lookup_panics_iff src pos). unfold find_token, find_meaningful_token.
    destruct (offset (new_line_index src) pos) as [x|]; cbn [aopt abind]; [|tauto].
    destruct (token_at_offset (root_of tree) x) as [| |a b|]; try tauto; split; try discriminate.
    repeat match goal with |- context[if ?c then _ else _] => destruct c end; discriminate.
  Qed.

  Lemma find_token_spec pos t : find_token src pos = Ans t <-> CursorAfter src pos t.
  Proof.
    unfold find_token, CursorAfter. destruct (offset (new_line_index src) pos) as [x|]; cbn [aopt abind].
    2:{ split; [discriminate|]. intros (x & H & _). discriminate. }
    assert (HT : forall t', Touch tree x t' <-> In t' (touching (root_of tree) x)).
    { intros t'. rewrite touching_spec. reflexivity. }
    destruct (root_node src) as (cs & Hroot).
    destruct (le_lt_dec x (glen tree)) as [Hl|Hl].
    2:{ unfold token_at_offset. cbn [el off ups root_of]. rewrite tao_out by lia. split; [discriminate|].
        intros (y & Hy & L & _). injection Hy as <-. rewrite <- glen_tlen in L. lia. }
    destruct (Nat.eq_dec (glen tree) 0) as [H0|H0].
    { assert (x = 0) as -> by lia. assert (E : token_at_offset (root_of tree) 0 = TNone).
      { unfold token_at_offset, root_of. cbn [el off ups]. rewrite Hroot in *. apply tao_empty_node. exact H0. }
      rewrite E. split; [discriminate|]. intros (y & Hy & _ & (Tt & _ & H1 & _) & _).
      apply Desc_range in Tt. unfold root_of, estart, eend in *. cbn [el off] in *. lia. }
    destruct (token_at_offset_ok tree 0 [] x) as [(u & E1 & E2)|(l & r & E1 & E2 & E3 & E4 & E5)]; [lia|lia| |];
      change (mk_elem tree 0 []) with (root_of tree) in *; rewrite E2; rewrite E1 in HT.
    - split; intros H.
      + injection H as <-. exists x. rewrite <- glen_tlen. split; [reflexivity|]. split; [exact Hl|]. split; [apply HT; now left|].
        intros t' H'. apply HT in H' as [<-|[]]. lia.
      + destruct H as (y & Hy & _ & H & _). injection Hy as <-. now apply HT in H as [<-|[]].
    - assert (Ht : In l (touching (root_of tree) x)) by (rewrite E1; now left). apply touching_spec in Ht.
      split; intros H.
      + injection H as <-. exists x. rewrite <- glen_tlen. split; [reflexivity|]. split; [exact Hl|]. split; [apply HT; now left|].
        intros t' H'. apply HT in H' as [<-|[<-|[]]]; lia.
      + destruct H as (y & Hy & _ & H & Z). injection Hy as <-. apply HT in H as [<-|[<-|[]]]; [reflexivity|].
        exfalso. assert (Tl : Touch tree x l) by (apply HT; now left). specialize (Z l Tl). lia.
  Qed.
  Lemma cursor_after_tok pos t : CursorAfter src pos t -> InTree tree t /\ is_node t = false /\ estart t < eend t.
  Proof. intros (x & _ & _ & (A & B & C & _) & _). auto. Qed.

  (** ** Names *)

  Lemma has_dollar_at t : has_dollar t = at_dollar t.
  Proof.
    unfold has_dollar, at_dollar. change (Text.T "$") with [36%N]. destruct (etext t) as [|c r]; [reflexivity|].
    cbn [starts_with]. rewrite N.eqb_sym. apply andb_true_r.
  Qed.
  Lemma ident_dollar d i : InTree tree d -> token d IDENT = Some i -> exists r, etext i = 36%N :: r.
  Proof.
    intros T E. assert (Ti : InTree tree i) by (eapply (token_in_tree src); eauto).
    apply token_some in E as (Hi & Ni & Ki).
    pose proof (C07_token_forms _ _ _ _ IDENT (etext i) (parse_of src)) as F.
    assert (L : LexForm IDENT (etext i)).
    { apply F. apply Sub_token. apply Desc_Sub in Ti. cbn [el root_of] in Ti. unfold etext. unfold ekind in Ki. unfold is_node in Ni.
      destruct (el i) as [k x|k x]; [|discriminate]. cbn in Ki. subst k. cbn [gtext]. exact Ti. }
    cbn [LexForm] in L. destruct L as (r & L & _). exists r. exact L.
  Qed.

  Lemma name_item_spec t k det doc p : InTree tree (snd p) ->
    exists its, name_item t k det doc (mk_idx (Some (fst p)) (ident_of (snd p))) = its
      /\ Forall2 (fun p it => Labelled (at_dollar t) p it /\ c_kind it = k /\ c_detail it = det /\ c_doc it = doc)
           (if at_dollar t then filter named_entry [p] else [p]) its.
  Proof.
    intros T. eexists. split; [reflexivity|]. unfold name_item, idx_text. rewrite has_dollar_at. cbn [i_name i_num].
    unfold ident_of. destruct (token (snd p) IDENT) as [i|] eqn:E; cbn [option_map].
    - destruct (ident_dollar (snd p) i T E) as (r & Er). destruct (at_dollar t).
      + cbn [filter]. unfold named_entry at 1. rewrite E. rewrite Er. cbn [N.eqb Pos.eqb].
        constructor; [|constructor]. unfold Labelled. rewrite E. cbn [c_label c_insert c_kind c_detail c_doc]. rewrite Er. eauto 8.
      + constructor; [|constructor]. unfold Labelled. rewrite E. cbn [c_label c_insert c_kind c_detail c_doc]. auto.
    - destruct (at_dollar t).
      + cbn [filter]. unfold named_entry at 1. rewrite E. constructor.
      + constructor; [|constructor]. unfold Labelled. rewrite E. cbn [c_label c_insert c_kind c_detail c_doc].
        repeat split; auto; apply digits_show.
  Qed.
  Lemma pick_cons (b : bool) p l : (if b then filter named_entry (p :: l) else p :: l)
    = (if b then filter named_entry [p] else [p]) ++ (if b then filter named_entry l else l).
  Proof. destruct b; [|reflexivity]. cbn. destruct (named_entry p); reflexivity. Qed.

  Lemma name_items t k (det : N * elem -> option text) (idx : N * elem -> Binder.idx) l :
    (forall p, In p l -> InTree tree (snd p) /\ idx p = mk_idx (Some (fst p)) (ident_of (snd p))) ->
    Forall2 (fun p it => Labelled (at_dollar t) p it /\ c_kind it = k /\ c_detail it = det p /\ c_doc it = None)
      (if at_dollar t then filter named_entry l else l)
      (flat_map (fun p => name_item t k (det p) None (idx p)) l).
  Proof.
    induction l as [|p l IH]; intros H.
    - cbn. destruct (at_dollar t); constructor.
    - rewrite pick_cons. cbn [flat_map]. apply Forall2_app; [|apply IH; intros q Hq; apply H; now right].
      destruct (H p (or_introl eq_refl)) as (T & ->). destruct (name_item_spec t k (det p) None p T) as (its & -> & F).
      assert (G : forall q, In q (if at_dollar t then filter named_entry [p] else [p]) -> q = p).
      { intros q Hq. destruct (at_dollar t); [apply filter_In in Hq as [Hq _]|]; destruct Hq as [<-|[]]; reflexivity. }
      revert G. induction F as [|q it qs its' Hq F IHF]; intros G; constructor.
      + rewrite (G q (or_introl eq_refl)) in *. exact Hq.
      + apply IHF. intros q' Hq'. apply G. now right.
  Qed.

  Lemma func_items t m l : InTree tree m -> (forall p, In p l -> In p (enum 0 (definitions m))) ->
    exists ls, map_ans (fun s =>
        match idx_text (s_idx s) (has_dollar t) with
        | None => Ans []
        | Some _ => abind (render_func_header src tb s) (fun h => Ans (name_item t IFunction None (Some (code h)) (s_idx s)))
        end) (map (def_symbol m SFunc) l) = Ans ls
      /\ Forall2 (Offered src (at_dollar t) (AModule FuncS)) (if at_dollar t then filter named_entry l else l) (concat ls).
  Proof.
    intros Tm. induction l as [|p l IH]; intros H.
    - exists []. split; [reflexivity|]. cbn. destruct (at_dollar t); constructor.
    - destruct IH as (ls & E & F); [intros q Hq; apply H; now right|].
      specialize (H p (or_introl eq_refl)). destruct p as [i d].
      assert (Hin : In d (definitions m)). { apply in_enum in H as (j & Hj & _). cbn in Hj. now apply nth_error_In in Hj. }
      pose proof (def_pointable src m d Tm Hin) as Pd. pose proof Pd as (Td & Nd & K1 & K2).
      set (s := def_symbol m SFunc (i, d)).
      destruct (header_spec src d s Pd eq_refl eq_refl eq_refl eq_refl) as (h & Eh & Hh).
      destruct (name_item_spec t IFunction None (Some (code h)) (i, d) Td) as (its & Ei & Fi). cbn [fst snd] in Ei.
      exists (its :: ls). cbn [map map_ans]. fold s. rewrite E, Eh. cbn [abind]. change (s_idx s) with (mk_idx (Some i) (ident_of d)).
      split.
      + rewrite Ei. destruct (idx_text (mk_idx (Some i) (ident_of d)) (has_dollar t)) as [[]|] eqn:X; [reflexivity|].
        cbn [abind]. unfold name_item in Ei. rewrite X in Ei. now subst its.
      + rewrite pick_cons. cbn [concat]. apply Forall2_app; [|exact F].
        assert (G : forall q, In q (if at_dollar t then filter named_entry [(i, d)] else [(i, d)]) -> q = (i, d)).
        { intros q Hq. destruct (at_dollar t); [apply filter_In in Hq as [Hq _]|]; destruct Hq as [<-|[]]; reflexivity. }
        revert G. clear - Fi Hh. induction Fi as [|q it qs its' (H1 & H2 & H3 & H4) F IHF]; intros G; constructor.
        * rewrite (G q (or_introl eq_refl)) in *. split; [exact H1|]. cbn [snd]. split; [exact H2|]. split; [exact H3|].
          exists h. split; [now apply Hh|exact H4].
        * apply IHF. intros q' Hq'. apply G. now right.
  Qed.

  (** ** Scopes *)

  Lemma token_parent t : InTree tree t -> is_node t = false ->
    exists p, parent t = Some p /\ InTree tree p /\ is_node p = true /\ In t (children_with_tokens p) /\ tl (ancestors t) = ancestors p.
  Proof.
    intros T N. inversion T as [|p c Tp Hc]; subst.
    - exfalso. destruct (root_node src) as (cs & E). unfold root_of, is_node in N. cbn in N. rewrite E in N. discriminate.
    - exists p. assert (is_node p = true) by (unfold is_node; unfold children_with_tokens in Hc; destruct (el p); [destruct Hc|reflexivity]).
      repeat split; auto; [now apply parent_child|now rewrite (ancestors_child p t Hc)].
  Qed.
  Lemma desc_token t p m : InTree tree t -> is_node t = false -> parent t = Some p -> In t (children_with_tokens p) -> is_node m = true -> Desc m t -> Desc m p.
  Proof.
    intros T N P Hc Nm D. inversion D as [|q c Dq Hq]; subst; [congruence|].
    assert (parent t = Some q) by now apply parent_child. congruence.
  Qed.
  Lemma ancestor_enclosing t p k : tl (ancestors t) = ancestors p -> ancestor t k = enclosing [k] p.
  Proof.
    intros E. unfold ancestor, enclosing. rewrite E. clear E. induction (ancestors p) as [|a l IH]; [reflexivity|].
    cbn [find]. replace (existsb (kind_eqb (ekind a)) [k]) with (kind_eqb (ekind a) k) by (cbn; now rewrite orb_false_r). destruct (kind_eqb (ekind a) k); [reflexivity|exact IH].
  Qed.
  Lemma ancestor_module t m : InTree tree t -> is_node t = false -> in_module t m -> InTree tree m -> ancestor t MODULE = Some m.
  Proof.
    intros T N (K & Nm & D) Tm. destruct (token_parent t T N) as (p & P & Tp & Np & Hc & E).
    rewrite (ancestor_enclosing t p MODULE E). apply (module_enclosing src); auto. split; [exact K|]. split; [exact Nm|]. now apply (desc_token t p m).
  Qed.
  Lemma ancestor_func t f : InTree tree t -> is_node t = false -> in_func t f -> InTree tree f -> ancestor t MODULE_FIELD_FUNC = Some f.
  Proof.
    intros T N (K & Nm & D) Tm. destruct (token_parent t T N) as (p & P & Tp & Np & Hc & E).
    rewrite (ancestor_enclosing t p MODULE_FIELD_FUNC E). apply (enclosing_func src); auto. split; [exact K|]. split; [exact Nm|]. now apply (desc_token t p f).
  Qed.
  Lemma ancestor_some t k m : InTree tree t -> is_node t = false -> ancestor t k = Some m ->
    ekind m = k /\ is_node m = true /\ Desc m t /\ InTree tree m.
  Proof.
    intros T N A. destruct (token_parent t T N) as (p & P & Tp & Np & Hc & E). rewrite (ancestor_enclosing t p k E) in A.
    apply (enclosing_kind src) in A as (B & C & F & G); auto. repeat split; auto. econstructor; eauto.
  Qed.

  Lemma fields_spec t m s : InTree tree t -> is_node t = false -> in_module t m -> InTree tree m ->
    fields tb t (sort_kind s) = map (def_symbol m (sort_kind s)) (filter (fun p => has_sort s (snd p)) (enum 0 (definitions m))).
  Proof.
    intros T N M Tm. unfold fields. rewrite (ancestor_module t m T N M Tm). destruct M as (K & Nm & _).
    rewrite <- (module_defs src m s Tm Nm K). apply filter_ext. intros x. unfold in_region. apply andb_comm.
  Qed.

  (** ** Blocks *)

  Definition around (t b : elem) : bool := Nat.leb (estart b) (estart t) && Nat.leb (eend t) (eend b).
  Lemma around_desc t b : InTree tree t -> is_node t = false -> estart t < eend t -> InTree tree b -> is_node b = true ->
    (around t b = true <-> Desc b t).
  Proof.
    intros T N Ne Tb Nb. unfold around. rewrite andb_true_iff, !Nat.leb_le. split.
    - intros [A B]. destruct (nested_or_apart tree b t Tb T) as [D|[D|[D|D]]]; [exact D| |lia|lia].
      inversion D as [|q c Dq Hq]; subst; [congruence|]. exfalso.
      pose proof (Desc_ancestors _ _ D) as H. clear - N Dq Hq D Tb T Nb.
      assert (X : forall x y, Desc x y -> is_node x = false -> x = y).
      { intros x y H. induction H as [|p c H IH Hc]; [reflexivity|]. intros Nx. specialize (IH Nx). subst p.
        unfold children_with_tokens in Hc. unfold is_node in Nx. destruct (el x); [destruct Hc|discriminate]. }
      apply X in D; auto. congruence.
    - intros D. apply Desc_range in D. exact D.
  Qed.

  Lemma sorted_unique {A} (R : A -> A -> Prop) (l1 : list A) : (forall a, ~ R a a) -> (forall a b c, R a b -> R b c -> R a c) ->
    forall l2, StronglySorted R l1 -> StronglySorted R l2 -> (forall x, In x l1 <-> In x l2) -> l1 = l2.
  Proof.
    intros Irr Tr. induction l1 as [|a l1 IH]; intros l2 S1 S2 H.
    - destruct l2 as [|b l2]; [reflexivity|]. exfalso. apply (H b). now left.
    - destruct l2 as [|b l2]. { exfalso. apply (H a). now left. }
      inversion S1 as [|? ? S1' F1]; inversion S2 as [|? ? S2' F2]; subst. rewrite Forall_forall in F1, F2.
      assert (a = b).
      { assert (Ha : In a (b :: l2)) by (apply H; now left). assert (Hb : In b (a :: l1)) by (apply H; now left).
        destruct Ha as [Ha|Ha]; [now symmetry|]. destruct Hb as [Hb|Hb]; [exact Hb|].
        exfalso. apply (Irr a). eapply Tr; [apply F1, Hb|apply F2, Ha]. }
      subst b. f_equal. apply IH; auto. intros x. split; intros Hx.
      + assert (X : In x (a :: l2)) by (apply H; now right). destruct X as [<-|X]; [|exact X]. exfalso. apply (Irr a), F1, Hx.
      + assert (X : In x (a :: l1)) by (apply H; now right). destruct X as [<-|X]; [|exact X]. exfalso. apply (Irr a), F2, Hx.
  Qed.
  Lemma sorted_filter {A} (R : A -> A -> Prop) f (l : list A) : StronglySorted R l -> StronglySorted R (filter f l).
  Proof.
    induction 1 as [|a l S IH F]; [constructor|]. cbn. destruct (f a); [|exact IH]. constructor; [exact IH|].
    rewrite Forall_forall in *. intros x Hx. apply filter_In in Hx as [Hx _]. auto.
  Qed.
  Lemma sorted_snoc {A} (R : A -> A -> Prop) (l : list A) x : StronglySorted R l -> Forall (fun y => R y x) l -> StronglySorted R (l ++ [x]).
  Proof.
    induction 1 as [|a l S IH F]; intros H; [repeat constructor|]. inversion H; subst. cbn. constructor; [auto|].
    apply Forall_app. split; [exact F|]. constructor; [assumption|constructor].
  Qed.

  Definition deeper (a b : elem) : Prop := length (ups a) < length (ups b).
  Lemma ancestors_sorted e : InTree tree e -> StronglySorted deeper (rev (ancestors e)).
  Proof.
    induction 1 as [|p c Tp IH Hc].
    - cbn. repeat constructor.
    - rewrite (ancestors_child p c Hc). cbn [rev]. apply sorted_snoc; [exact IH|]. apply Forall_forall. intros y Hy.
      apply in_rev in Hy. unfold deeper. pose proof (child_depth p c Hc) as L.
      destruct (ancestors_Desc tree y p Tp Hy) as [_ D]. apply Desc_depth in D as [->|D]; lia.
  Qed.
  Lemma preorder_sorted t : InTree tree t -> is_node t = false -> estart t < eend t ->
    forall l1 l2, descendants (root_of tree) = l1 ++ l2 -> StronglySorted deeper (filter (around t) l2).
  Proof.
    intros T N Ne l1 l2. revert l1. induction l2 as [|a l2 IH]; intros l1 E; [constructor|].
    assert (E' : descendants (root_of tree) = (l1 ++ [a]) ++ l2) by (rewrite <- app_assoc; exact E).
    cbn [filter]. destruct (around t a) eqn:Ra; [|apply (IH _ E')]. constructor; [apply (IH _ E')|].
    apply Forall_forall. intros b Hb. apply filter_In in Hb as [Hb Rb].
    assert (Ia : In a (descendants (root_of tree))) by (rewrite E; apply in_or_app; right; now left).
    assert (Ib : In b (descendants (root_of tree))) by (rewrite E; apply in_or_app; right; now right).
    apply in_descendants_of in Ia as [Ta Na]. apply in_descendants_of in Ib as [Tb Nb].
    apply around_desc in Ra; auto. apply around_desc in Rb; auto.
    pose proof (descendants_nodup (root_of tree)) as ND. rewrite E in ND.
    assert (Hne : a <> b). { intros <-. apply NoDup_remove_2 in ND. apply ND, in_or_app. now right. }
    destruct (Desc_total _ _ _ Ra Rb) as [D|D].
    - apply Desc_depth in D as [D|D]; [contradiction|exact D].
    - exfalso. assert (X : In b l1) by (eapply preorder_ancestor; eauto).
      apply in_split in Hb as (x & y & ->). clear - ND X.
      apply in_split in X as (u & v & ->). rewrite <- app_assoc in ND. cbn in ND. apply NoDup_remove_2 in ND. apply ND.
      rewrite !in_app_iff. right. right. right. apply in_or_app. right. now left.
  Qed.
  Lemma around_ancestors t : InTree tree t -> is_node t = false -> estart t < eend t ->
    filter (around t) (descendants (root_of tree)) = rev (tl (ancestors t)).
  Proof.
    intros T N Ne. destruct (token_parent t T N) as (p & P & Tp & Np & Hc & E). rewrite E.
    apply (sorted_unique deeper).
    - unfold deeper. lia.
    - unfold deeper. lia.
    - apply (preorder_sorted t T N Ne [] _ eq_refl).
    - now apply ancestors_sorted.
    - intros x. rewrite <- in_rev, filter_In, in_descendants_of. split.
      + intros [[Tx Nx] A]. apply around_desc in A; auto. apply Desc_ancestors. now apply (desc_token t p x).
      + intros A. destruct (ancestor_node src p x Tp Np A) as (B & C & D). split; [auto|].
        apply around_desc; auto. econstructor; eauto.
  Qed.

  Lemma block_filter id e : InTree tree e -> is_node e = true ->
    filter (fun s => skind_eqb (s_kind s) SBlockDef) (node_symbols id e)
    = if is_block e then match parent e with Some p => [block_symbol p e] | None => [] end else [].
  Proof.
    intros T N. destruct (is_block e) eqn:B.
    - destruct (block_parent src e T N B) as (p & Pp & _). rewrite (block_node_symbols e id p); [|now apply block_kind|exact Pp]. now rewrite Pp.
    - apply filter_none. intros s Hs. apply not_true_iff_false. intros K. apply skind_eqb_eq in K.
      unfold node_symbols in Hs. unfold is_block in B.
      destruct (ekind e) eqn:Ke; try discriminate B; try destruct Hs;
        try (apply index_ref_kind in Hs; congruence); try (apply parent_based_kind in Hs; congruence);
        try (unfold import_desc_based in Hs; destruct (parent e) as [p|]; [|destruct Hs];
             destruct (parent p); [|destruct Hs]; destruct Hs as [<-|[]]; discriminate).
      + apply instr_symbols_kind in Hs. rewrite K in Hs. cbn in Hs. intuition discriminate.
      + destruct (parent e); [|destruct Hs]. destruct Hs as [<-|[]]. discriminate.
      + apply in_app_or in Hs as [Hs|Hs]; [apply parent_based_kind in Hs; congruence|].
        apply in_app_or in Hs as [Hs|Hs]; apply number_slots_kind in Hs; congruence.
  Qed.

  Lemma blocks_idx i (l : list elem) : (forall e, In e l -> InTree tree e /\ is_node e = true) ->
    number_from i (flat_map (fun e => if is_block e then match parent e with Some p => [block_symbol p e] | None => [] end else []) l)
    = map (fun p => mk_idx (Some (fst p)) (ident_of (snd p))) (enum i (filter is_block l)).
  Proof.
    revert i. induction l as [|e l IH]; intros i H; [reflexivity|]. cbn [flat_map filter].
    destruct (H e (or_introl eq_refl)) as [T N]. assert (H' : forall e, In e l -> InTree tree e /\ is_node e = true) by (intros x Hx; apply H; now right).
    destruct (is_block e) eqn:B; [|now apply IH]. destruct (block_parent src e T N B) as (p & -> & _).
    cbn. now rewrite IH.
  Qed.
  Lemma flat_map_map {A B C} (f : B -> list C) (g : A -> B) l : flat_map (fun x => f (g x)) l = flat_map f (map g l).
  Proof. induction l; cbn; [reflexivity|]. now rewrite IHl. Qed.
  Lemma flat_map_filter {A B} (c : A -> bool) (f : A -> list B) l : flat_map (fun x => if c x then f x else []) l = flat_map f (filter c l).
  Proof. induction l as [|a l IH]; cbn; [reflexivity|]. destruct (c a); cbn; now rewrite IH. Qed.
  Lemma rev_flat_map {A B} (f : A -> list B) l : (forall x, length (f x) <= 1) -> rev (flat_map f (rev l)) = flat_map f l.
  Proof.
    intros H. induction l as [|a l IH]; cbn; [reflexivity|]. rewrite flat_map_app, rev_app_distr, IH. cbn. rewrite List.app_nil_r.
    f_equal. specialize (H a). destruct (f a) as [|x [|y r]]; [reflexivity..|cbn in H; lia].
  Qed.
  Lemma token_form t : InTree tree t -> is_node t = false -> LexForm (ekind t) (etext t).
  Proof.
    intros T N. apply (C07_token_forms _ _ _ _ _ _ (parse_of src)). apply Sub_token. apply Desc_Sub in T. cbn [el root_of] in T.
    unfold ekind, etext. unfold is_node in N. destruct (el t); [exact T|discriminate].
  Qed.
  Lemma token_not_block t : InTree tree t -> is_node t = false -> is_block t = false.
  Proof.
    intros T N. pose proof (token_form t T N) as F. unfold is_block. destruct (ekind t); try reflexivity; destruct F.
  Qed.
  Lemma blocks_spec t : InTree tree t -> is_node t = false -> estart t < eend t ->
    number_from 0 (blocks_around tb t)
    = map (fun p => mk_idx (Some (fst p)) (ident_of (snd p))) (enum 0 (enclosing_blocks t)).
  Proof.
    intros T N Ne. unfold blocks_around, the_table. cbn [symbols]. unfold raw_symbols. rewrite filter_flat_map.
    rewrite (flat_map_ext_in _ (fun q => (fun e => if around t e then if is_block e then match parent e with Some p => [block_symbol p e] | None => [] end else [] else []) (snd q))).
    2:{ intros [id e] He. apply nodes_in in He as [Te Nn]. cbn [fst snd].
        rewrite <- filter_filter, (block_filter id e Te Nn). destruct (is_block e) eqn:B; [|now destruct (around t e)].
        destruct (block_parent src e Te Nn B) as (p & -> & _). cbn [filter block_symbol s_key key_of key_start key_end].
        unfold around, key_of, key_start, key_end. cbn. destruct (Nat.leb (estart e) (estart t) && Nat.leb (eend t) (eend e)); reflexivity. }
    set (g := fun e : elem => if is_block e then match parent e with Some p => [block_symbol p e] | None => [] end else []).
    match goal with |- context[flat_map ?f nodes] =>
      assert (E : forall l : list (BinNums.N * elem), flat_map f l = flat_map g (filter (around t) (map snd l))) end.
    { induction l as [|[i e] l IH]; [reflexivity|]. cbn [flat_map map filter snd]. rewrite IH. destruct (around t e); reflexivity. }
    rewrite E. unfold BinderFacts.nodes. rewrite number_snd, (around_ancestors t T N Ne).
    rewrite rev_flat_map.
    2:{ intros x. unfold g. destruct (is_block x); [|cbn; lia]. destruct (parent x); cbn; lia. }
    unfold enclosing_blocks. replace (filter is_block (ancestors t)) with (filter is_block (tl (ancestors t))).
    2:{ unfold ancestors at 2. cbn [filter]. now rewrite (token_not_block t T N). }
    apply blocks_idx. intros e He. destruct (token_parent t T N) as (p & P & Tp & Np & Hc & Ea). rewrite Ea in He.
    destruct (ancestor_node src p e Tp Np He) as (B & C & D). auto.
  Qed.

  (** ** The items of a context *)

  Definition ctx_of (a : asked) : cmp_ctx :=
    match a with
    | AModule FuncS => CFunc | AModule TypeS => CFuncType | AModule GlobalS => CGlobal
    | AModule MemS => CMemory | AModule TableS => CTable
    | ALocal => CLocal | ALabel => CBlock
    end.

  Lemma def_in_tree m s p : InTree tree m -> In p (filter (fun p => has_sort s (snd p)) (enum 0 (definitions m))) ->
    InTree tree (snd p) /\ In p (enum 0 (definitions m)) /\ has_sort s (snd p) = true.
  Proof.
    intros Tm Hp. apply filter_In in Hp as [Hp Hs]. split; [|auto]. destruct p as [i d]. apply in_enum in Hp as (j & Hj & _).
    cbn in Hj. apply nth_error_In in Hj. destruct (def_pointable src m d Tm Hj) as (Td & _). exact Td.
  Qed.
  Lemma global_shown d : InTree tree d -> option_map show_valtype (extract_global_type (el d)) = option_map etext (global_value d).
  Proof.
    intros Td. pose proof (global_type src d Td) as G. unfold GlobalType in G. unfold global_value.
    destruct (extract_global_type (el d)) as [v|] eqn:E; cbn [option_map].
    - destruct (proj1 (G v) eq_refl) as (g & x & -> & -> & <-). reflexivity.
    - destruct (child d GLOBAL_TYPE) as [g|] eqn:C; [|reflexivity]. destruct (hd_error (childs g VAL_TYPE)) as [x|] eqn:H; [|reflexivity].
      exfalso. assert (Hx : In x (childs g VAL_TYPE)) by (destruct (childs g VAL_TYPE); [discriminate|injection H as ->; now left]).
      apply in_childs in Hx as [Hx Kx]. apply child_some in C as [Cg _]. pose proof (in_tree_child src d g Td Cg) as Tg.
      pose proof (in_tree_child src g x Tg Hx) as Tx.
      destruct (valtype_green src x (tree_part src x Tx) (child_node g x Hx) Kx) as (v & _ & Ev).
      assert (None = Some v) by (apply G; eauto). discriminate.
  Qed.
  Lemma slot_shown f d : InTree tree f -> ekind f = MODULE_FIELD_FUNC -> In d (locals_space f) ->
    option_map show_valtype (extract_type (el d)) = option_map etext (slot_value d).
  Proof.
    intros Tf Kf Hd. rewrite locals_space_slots in Hd. destruct (slot_facts src f d Tf Kf Hd) as (Td & Nd & Kd & _).
    assert (K : In (ekind d) [VAL_TYPE; PARAM; LOCAL]) by (cbn in *; tauto).
    pose proof (slot_type src d Td Nd K) as G. unfold SlotType in G. unfold slot_value.
    destruct (kind_eqb (ekind d) VAL_TYPE) eqn:E.
    - apply kind_eqb_eq in E. destruct (valtype_green src d (tree_part src d Td) Nd E) as (v & _ & Ev).
      apply G in Ev as Ev'. rewrite Ev'. cbn. now rewrite Ev.
    - destruct (extract_type (el d)) as [v|] eqn:X; cbn [option_map].
      + destruct (proj1 (G v) eq_refl) as (x & -> & <-). reflexivity.
      + destruct (hd_error (childs d VAL_TYPE)) as [x|] eqn:H; [|reflexivity].
        exfalso. assert (Hx : In x (childs d VAL_TYPE)) by (destruct (childs d VAL_TYPE); [discriminate|injection H as ->; now left]).
        apply in_childs in Hx as [Hx Kx]. pose proof (in_tree_child src d x Td Hx) as Tx.
        destruct (valtype_green src x (tree_part src x Tx) (child_node d x Hx) Kx) as (v & _ & Ev).
        assert (None = Some v) by (apply G; eauto). discriminate.
  Qed.
  Lemma Forall2_weaken {A B} (R S : A -> B -> Prop) l1 l2 : (forall a b, In a l1 -> R a b -> S a b) -> Forall2 R l1 l2 -> Forall2 S l1 l2.
  Proof. intros H F. induction F; constructor; [apply H; [now left|assumption]|]. apply IHF. intros; apply H; [now right|assumption]. Qed.
  Lemma in_pick (b : bool) p l : In p (if b then filter named_entry l else l) -> In p l.
  Proof. destruct b; [|auto]. intros H. now apply filter_In in H as [H _]. Qed.

  Lemma ctx_names t a l : InTree tree t -> is_node t = false -> estart t < eend t -> InScopeAt src t a l ->
    exists its, ctx_items src tb t (ctx_of a) = Ans its
      /\ Forall2 (Offered src (at_dollar t) a) (if at_dollar t then filter named_entry l else l) its.
  Proof.
    intros T N Ne S. destruct S as [s m M Tm|f F Tf|F|].
    - rewrite numbered_enum. pose proof (fields_spec t m s T N M Tm) as E.
      pose proof (fun p => def_in_tree m s p Tm) as Hd. set (l := filter (fun p => has_sort s (snd p)) (enum 0 (definitions m))) in *.
      assert (W : forall k det its, sort_kind s = sort_kind s ->
        its = flat_map (fun p => name_item t k (det p) None (mk_idx (Some (fst p)) (ident_of (snd p)))) l ->
        Forall2 (fun p it => Labelled (at_dollar t) p it /\ c_kind it = k /\ c_detail it = det p /\ c_doc it = None)
          (if at_dollar t then filter named_entry l else l) its).
      { intros k det its _ ->. apply name_items. intros p Hp. split; [now apply Hd|reflexivity]. }
      destruct s; cbn [ctx_of ctx_items sort_kind] in *; rewrite E.
      + destruct (func_items t m l Tm) as (ls & El & Fl). { intros p Hp. now apply Hd. }
        rewrite El. cbn [abind]. eexists. split; [reflexivity|exact Fl].
      + eexists. split; [reflexivity|]. rewrite <- flat_map_map. eapply Forall2_weaken; [|apply (W IInterface (fun _ => None)); reflexivity].
        intros p it _ H. exact H.
      + eexists. split; [reflexivity|]. rewrite <- flat_map_map. eapply Forall2_weaken; [|apply (W IVariable (fun p => option_map show_valtype (extract_global_type (el (snd p))))); reflexivity].
        intros p it Hp (H1 & H2 & H3 & H4). split; [exact H1|]. rewrite H3. rewrite global_shown; [auto|]. apply in_pick in Hp. now apply Hd.
      + eexists. split; [reflexivity|]. rewrite <- flat_map_map. eapply Forall2_weaken; [|apply (W IVariable (fun _ => None)); reflexivity].
        intros p it _ H. exact H.
      + eexists. split; [reflexivity|]. rewrite <- flat_map_map. eapply Forall2_weaken; [|apply (W IVariable (fun _ => None)); reflexivity].
        intros p it _ H. exact H.
    - rewrite numbered_enum. cbn [ctx_of ctx_items]. rewrite (ancestor_func t f T N F Tf). destruct F as (Kf & Nf & Df).
      eexists. split; [reflexivity|].
      assert (E : filter (fun s => (skind_eqb (s_kind s) SParam || skind_eqb (s_kind s) SLocal) && key_eqb (s_region s) (key_of f)) (symbols tb)
                  = map (local_symbol f) (enum 0 (locals_space f))).
      { etransitivity; [|etransitivity; [exact (func_locals src f Tf Nf Kf)|apply local_symbols_enum]].
        apply filter_ext. intros x. rewrite andb_comm. f_equal. unfold is_param_or_local. destruct (s_kind x); reflexivity. }
      rewrite E, <- flat_map_map.
      eapply Forall2_weaken; [|apply (name_items t IVariable (fun p => option_map show_valtype (extract_type (el (snd p)))) (fun p => s_idx (local_symbol f p)))].
      + intros [i d] it Hp (H1 & H2 & H3 & H4). split; [exact H1|]. rewrite H3. cbn [snd]. rewrite (slot_shown f d Tf Kf); [auto|].
        apply in_pick, in_enum in Hp as (j & Hj & _). now apply nth_error_In in Hj.
      + intros [i d] Hp. apply in_enum in Hp as (j & Hj & _). cbn [snd] in *. apply nth_error_In in Hj. rewrite locals_space_slots in Hj.
        destruct (slot_facts src f d Tf Kf Hj) as (Td & Nd & Kd & _). split; [exact Td|].
        unfold local_symbol, slot_symbol. cbn [s_idx fst snd]. destruct (kind_eqb (ekind d) VAL_TYPE) eqn:V; [|reflexivity].
        apply kind_eqb_eq in V. f_equal. unfold ident_of. rewrite (no_token src d IDENT Td); [reflexivity|congruence| |reflexivity]. rewrite V. vm_compute. reflexivity.
    - cbn [ctx_of ctx_items]. destruct (ancestor t MODULE_FIELD_FUNC) as [f|] eqn:A.
      + exfalso. apply ancestor_some in A as (K & Nf & D & Tf); auto. apply (F f); [repeat split; auto|exact Tf].
      + eexists. split; [reflexivity|]. destruct (at_dollar t); constructor.
    - rewrite numbered_enum. cbn [ctx_of ctx_items]. eexists. split; [reflexivity|]. rewrite (blocks_spec t T N Ne), <- flat_map_map.
      eapply Forall2_weaken; [|apply (name_items t IVariable (fun _ => None) (fun p => mk_idx (Some (fst p)) (ident_of (snd p))))].
      + intros p it _ H. exact H.
      + intros [i b] Hp. split; [|reflexivity]. apply in_enum in Hp as (j & Hj & _). cbn [snd] in *. apply nth_error_In in Hj.
        apply filter_In in Hj as [Hj _]. apply (ancestors_Desc tree) in Hj; auto. apply Hj.
  Qed.

  (** ** Contexts of a reference position *)

  Lemma node_parent_child n p : InTree tree n -> is_node n = true -> parent n = Some p -> In n (children p) /\ InTree tree p /\ is_node p = true.
  Proof.
    intros T N P. destruct (parent_ex src n T N) as [->|(q & Tq & Nq & Hc & Pq)]; [discriminate|]. assert (q = p) by congruence. subst. auto.
  Qed.
  Lemma prev_node_first p n r : children p = n :: r -> prev_node n = None.
  Proof.
    intros E. assert (Hc : In n (children p)) by (rewrite E; now left). pose proof Hc as Hc'. apply in_children in Hc' as [Hc' Nn].
    pose proof (children_parent p n Hc) as P. destruct (before_ex n p P Hc') as (p' & r' & P' & E'). assert (p' = p) by congruence. subst p'.
    unfold prev_node. destruct (find is_node (prev_siblings n)) as [x|] eqn:F; [|reflexivity]. exfalso.
    apply find_some in F as [Hx Nx]. apply in_rev in Hx. set (l := rev (prev_siblings n)) in *.
    assert (ND : NoDup (l ++ n :: r')) by (rewrite <- E'; apply children_nodup).
    assert (En : children p = filter is_node l ++ n :: filter is_node r').
    { unfold children. rewrite E', filter_app. cbn [filter]. now rewrite Nn. }
    rewrite E in En. destruct (filter is_node l) as [|y ys] eqn:Fl.
    - assert (In x (filter is_node l)) by now apply filter_In. rewrite Fl in H. destruct H.
    - cbn in En. injection En as En _. subst y. assert (Hn : In n (filter is_node l)) by (rewrite Fl; now left).
      apply filter_In in Hn as [Hn _]. apply NoDup_remove_2 in ND. apply ND, in_or_app. now left.
  Qed.
  Lemma ctx_at t p a : InTree tree t -> is_node t = false -> parent t = Some p -> InTree tree p -> is_node p = true -> AsksAt t a -> contexts t p = Ans [ctx_of a].
  Proof.
    intros T N P Tp Np A. destruct A as [n a Pn A M|n g Pn Kn Pg Kg|q l a Pq Kt Nm Hl|q s Pq Hs].
    - assert (n = p) by congruence. subst n. clear Pn.
      assert (OP : forall q l, parent p = Some q -> named_instr q l ->
                ekind p = OPERAND /\ exists x, token q INSTR_NAME = Some x /\ In (etext x) (map Text.T l)
                /\ contexts t p = abind (aopt (Some x)) (fun nm => Ans (operand_ctx (etext nm) p))).
      { intros q l Pq (Kq & x & Ex & Hx). destruct (node_parent_child p q Tp Np Pq) as (Hc & Tq & Nq).
        pose proof (instr_child_kind src q p Tq Kq Hc) as Kp. split; [exact Kp|]. exists x. split; [exact Ex|]. split; [exact Hx|].
        assert (E : find (fun n => kind_eqb (ekind n) PLAIN_INSTR) (ancestors p) = Some q).
        { apply in_children in Hc as [Hc' _]. rewrite (ancestors_child q p Hc'). unfold ancestors. cbn [find]. rewrite Kp, Kq. reflexivity. }
        unfold contexts. rewrite Kp, E. cbn [aopt abind]. now rewrite Ex. }
      assert (IX : forall q, parent p = Some q -> child q INDEX = Some p -> contexts t p = Ans
          match ekind q with
          | MODULE_FIELD_START | EXPORT_DESC_FUNC => [CFunc]
          | TYPE_USE => [CFuncType]
          | EXPORT_DESC_GLOBAL => [CGlobal]
          | EXPORT_DESC_MEMORY => [CMemory]
          | EXPORT_DESC_TABLE => [CTable]
          | _ => []
          end).
      { intros q Pq C. apply child_some in C as [_ K]. unfold contexts. rewrite K, Pq. reflexivity. }
      destruct A as [q Pq Nm|q Pq Nm|q Pq Nm|q r Pq Nm Ch|q Pq Nm|q Pq Nm|q Pq K C|q Pq K C|q Pq K C|q Pq K C];
        try (destruct (OP q _ Pq Nm) as (Kp & x & Ex & Hx & ->); cbn [aopt abind];
             cbn [map In] in Hx;
             repeat (destruct Hx as [Hx|Hx]; [rewrite <- Hx; reflexivity|]); now destruct Hx);
        try (rewrite (IX q Pq C)).
      + destruct (OP q _ Pq Nm) as (Kp & x & Ex & Hx & ->). cbn [aopt abind]. destruct Hx as [Hx|[]]. rewrite <- Hx.
        destruct (node_parent_child p q Tp Np Pq) as (Hc & Tq & Nq).
        unfold operand_ctx. rewrite (prev_node_first q p r Ch), Kp. reflexivity.
      + destruct K as [K|[K|[]]]; rewrite <- K; reflexivity.
      + rewrite K. reflexivity.
      + destruct K as [K|[K|[]]]; rewrite <- K; [reflexivity|]. exfalso. now apply (M q Pq).
      + rewrite K. reflexivity.
    - assert (n = p) by congruence. subst n. unfold contexts. rewrite Kn, Pg. cbn [aopt abind]. rewrite Kg. reflexivity.
    - assert (q = p) by congruence. subst q. destruct Nm as (Kp & x & Ex & Hx). unfold contexts. rewrite Kp.
      destruct (kind_eqb (ekind t) INSTR_NAME) eqn:E; [apply kind_eqb_eq in E; contradiction|]. rewrite Ex. cbn [aopt abind].
      unfold operand_ctx. rewrite Kp.
      cbn [operand_sorts In] in Hl. repeat (destruct Hl as [Hl|Hl]; [injection Hl as <- <-; cbn [map In] in Hx;
         repeat (destruct Hx as [Hx|Hx]; [rewrite <- Hx; reflexivity|]); now destruct Hx|]). destruct Hl.
    - assert (q = p) by congruence. subst q. unfold contexts. cbn [form_sorts In] in Hs.
      repeat (destruct Hs as [Hs|Hs]; [injection Hs as Hk <-; rewrite <- Hk; reflexivity|]). destruct Hs.
  Qed.

  Theorem references_exact pos t a l : CursorAfter src pos t -> AsksAt t a -> InScopeAt src t a l ->
    exists its, completion src pos = Ans its
      /\ Forall2 (Offered src (at_dollar t) a) (if at_dollar t then filter named_entry l else l) its.
  Proof.
    intros C A S. destruct (cursor_after_tok pos t C) as (T & N & Ne). destruct (token_parent t T N) as (p & P & Tp & Np & _).
    destruct (ctx_names t a l T N Ne S) as (its & E & F). exists its. split; [|exact F].
    unfold completion. apply find_token_spec in C. rewrite C. cbn [abind]. rewrite P. cbn [aopt abind].
    rewrite (ctx_at t p a T N P Tp Np A). cbn [abind]. rewrite symbols_spec. cbn [abind map_ans]. rewrite E. cbn [abind concat].
    now rewrite List.app_nil_r.
  Qed.

  (** ** Every context *)

  Lemma words_sound (k : item_kind) l : (forall s, In s l -> Word (plain k s)) -> forall it, In it (map (plain k) l) -> Word it.
  Proof. intros H it Hi. apply in_map_iff in Hi as (s & <- & Hs). now apply H. Qed.
  Notation from_scope := (InScopeItem src).
  Lemma Forall2_pick {A B} (R : A -> B -> Prop) l l' y : Forall2 R l l' -> In y l' -> exists x, In x l /\ R x y.
  Proof.
    induction 1 as [|a b l l' H F IH]; intros []; [subst; exists a; split; [now left|exact H]|].
    destruct IH as (x & Hx & Hr); [assumption|]. exists x. split; [now right|exact Hr].
  Qed.
  Lemma ctx_scope t a l : InTree tree t -> is_node t = false -> estart t < eend t -> InScopeAt src t a l ->
    exists its, ctx_items src tb t (ctx_of a) = Ans its /\ forall it, In it its -> from_scope t it.
  Proof.
    intros T N Ne S. destruct (ctx_names t a l T N Ne S) as (its & E & F). exists its. split; [exact E|].
    intros it Hi. destruct (Forall2_pick _ _ _ it F Hi) as (p & Hp & O). apply in_pick in Hp. exists a, l, p. auto.
  Qed.
  Lemma module_names t s : InTree tree t -> is_node t = false -> estart t < eend t ->
    exists its, ctx_items src tb t (ctx_of (AModule s)) = Ans its /\ forall it, In it its -> from_scope t it.
  Proof.
    intros T N Ne. destruct (ancestor t MODULE) as [m|] eqn:A.
    - apply ancestor_some in A as (K & Nm & D & Tm); auto.
      eapply (ctx_scope t (AModule s)); auto. apply (Scope_module src t s m); [repeat split; auto|exact Tm].
    - exists []. split; [|intros it []]. destruct s; cbn [ctx_of ctx_items]; unfold fields; rewrite A; reflexivity.
  Qed.
  Lemma ctx_sound t c : InTree tree t -> is_node t = false -> estart t < eend t ->
    exists its, ctx_items src tb t c = Ans its /\ forall it, In it its -> Word it \/ from_scope t it.
  Proof.
    intros T N Ne.
    assert (NM : forall s, exists its, ctx_items src tb t (ctx_of (AModule s)) = Ans its /\ forall it, In it its -> Word it \/ from_scope t it).
    { intros s. destruct (module_names t s T N Ne) as (its & E & F). exists its. auto. }
    destruct c; try apply (NM FuncS); try apply (NM TypeS); try apply (NM GlobalS); try apply (NM MemS); try apply (NM TableS);
      try (eexists; split; [reflexivity|]; intros it Hi; left;
           first [revert it Hi; apply words_sound; intros s Hs;
                  first [apply Word_instr; exact Hs|apply Word_arg; exact Hs|apply Word_keyword; cbn in *; tauto]
                 |destruct Hi as [<-|[]]; apply Word_keyword; cbn; tauto]).
    - eexists; split; [reflexivity|]. intros it Hi. left. apply in_map_iff in Hi as (s & <- & Hs). now apply Word_type.
    - eexists; split; [reflexivity|]. intros it Hi. left. apply in_map_iff in Hi as (s & <- & Hs). apply Word_type. cbn in *. tauto.
    - destruct (ancestor t MODULE_FIELD_FUNC) as [f|] eqn:A.
      + apply ancestor_some in A as (K & Nf & D & Tf); auto.
        destruct (ctx_scope t ALocal (numbered 0 (locals_space f)) T N Ne) as (its & E & F); [apply (Scope_func src t f); [repeat split; auto|exact Tf]|].
        exists its. auto.
      + exists []. split; [|intros it []]. cbn [ctx_items]. now rewrite A.
    - destruct (ctx_scope t ALabel _ T N Ne (Scope_label src t)) as (its & E & F). exists its. auto.
  Qed.
  Lemma items_sound t cs : InTree tree t -> is_node t = false -> estart t < eend t ->
    exists ls, map_ans (ctx_items src tb t) cs = Ans ls
      /\ Forall2 (fun c its => ctx_items src tb t c = Ans its) cs ls
      /\ forall it, In it (concat ls) -> Word it \/ from_scope t it.
  Proof.
    intros T N Ne. induction cs as [|c cs (ls & E & F & H)].
    - exists []. repeat split; [constructor|intros it []].
    - destruct (ctx_sound t c T N Ne) as (its & Ec & Hc). exists (its :: ls). cbn [map_ans]. rewrite Ec, E. cbn [abind].
      repeat split; [now constructor|]. intros it Hi. cbn in Hi. apply in_app_or in Hi as [Hi|Hi]; auto.
  Qed.
  Lemma contexts_not_panics t p : contexts t p <> Panics.
  Proof.
    unfold contexts. destruct (ekind p); try discriminate.
    - destruct (kind_eqb (ekind t) INSTR_NAME); [discriminate|]. destruct (token p INSTR_NAME); discriminate.
    - destruct (find _ _); [|discriminate]. cbn [aopt abind]. destruct (token _ _); discriminate.
    - destruct (parent p); discriminate.
  Qed.
End Doc.

(** ** Keywords *)

Fixpoint mentionsb (a : rx) (eqa : rx -> bool) (r : rx) : bool :=
  eqa r || match r with
           | Sq x y | Or x y => mentionsb a eqa x || mentionsb a eqa y
           | Star x => mentionsb a eqa x
           | _ => false
           end.
Definition is_kw (w : string) (r : rx) : bool := match r with Kw s => String.eqb s w | _ => false end.
Definition is_nd (k : kind) (r : rx) : bool := match r with Nd k' => kind_eqb k' k | _ => false end.
Lemma mentionsb_ok a f r : (forall x, f x = true -> x = a) -> mentionsb a f r = true -> Mentions a r.
Proof.
  intros H. induction r; cbn; intros E; apply orb_prop in E as [E|E]; try (left; now apply H); try discriminate; right.
  - apply orb_prop in E as [E|E]; auto.
  - apply orb_prop in E as [E|E]; auto.
  - auto.
Qed.
Lemma is_kw_ok w x : is_kw w x = true -> x = Kw w.
Proof. destruct x; cbn; try discriminate. intros E. now apply String.eqb_eq in E as ->. Qed.
Lemma is_nd_ok k x : is_nd k x = true -> x = Nd k.
Proof. destruct x; cbn; try discriminate. intros E. now apply kind_eqb_eq in E as ->. Qed.
Fixpoint parts (r : rx) : list kind :=
  match r with Nd k => [k] | Sq x y | Or x y => parts x ++ parts y | Star x => parts x | _ => [] end.
Lemma parts_ok r k : In k (parts r) -> Mentions (Nd k) r.
Proof.
  induction r; cbn; intros H; try contradiction.
  - destruct H as [<-|[]]. now left.
  - right. apply in_app_or in H as [H|H]; auto.
  - right. apply in_app_or in H as [H|H]; auto.
  - right. auto.
Qed.
Definition mentions_kw (w : string) (k : kind) : bool := mentionsb (Kw w) (is_kw w) (production k).
Definition mayb (k : kind) (w : string) : bool :=
  mentions_kw w k || existsb (mentions_kw w) (parts (production k))
  || existsb (fun k' => existsb (kind_eqb k') (parts (production k)) && existsb (mentions_kw w) (parts (production k'))) [TYPE_USE; ELEM_LIST].
Lemma mayb_ok k w : mayb k w = true -> May k w.
Proof.
  unfold mayb. intros H. assert (KW : forall k, mentions_kw w k = true -> Mentions (Kw w) (production k)).
  { intros k'. apply mentionsb_ok, is_kw_ok. }
  apply orb_prop in H as [H|H]; [apply orb_prop in H as [H|H]|].
  - apply May_self. auto.
  - apply existsb_exists in H as (k' & H1 & H2). eapply May_part; [apply parts_ok, H1|auto].
  - apply existsb_exists in H as (k1 & Hk & H). apply andb_prop in H as [H1 H2]. apply existsb_exists in H1 as (k2 & H1 & E). apply kind_eqb_eq in E. subst k2.
    apply existsb_exists in H2 as (k' & H3 & H4). eapply (May_list k w k1); [|apply parts_ok, H1|apply parts_ok, H3|auto].
    destruct Hk as [<-|[<-|[]]]; auto.
Qed.

Definition kw_of (c : cmp_ctx) : list string :=
  (match c with
   | KwModule => ["module"]
   | KwModuleField => ["func"; "type"; "import"; "table"; "memory"; "global"; "export"; "start"; "elem"; "data"]
   | KwImExport => ["import"; "export"]
   | KwType => ["type"]
   | KwParamResult => ["param"; "result"]
   | KwLocal => ["local"]
   | KwMut => ["mut"]
   | KwPortDesc => ["func"; "table"; "memory"; "global"]
   | KwData => ["data"] | KwFunc => ["func"] | KwElem => ["elem"] | KwItem => ["item"] | KwMemory => ["memory"]
   | KwOffset => ["offset"] | KwDeclare => ["declare"] | KwTable => ["table"]
   | _ => []
   end)%string.

Section Doc.
  Variable src : text.
  Notation tree := (tree_of src).
  Notation tb := (the_table src).

  Lemma scope_not_keyword t it : InScopeItem src t it -> c_kind it <> IKeyword.
  Proof.
    intros (a & l & p & _ & _ & _ & O). destruct a as [[]| |]; destruct O as (-> & _); discriminate.
  Qed.
  Lemma ans_inj {A} (a b : A) : Ans a = Ans b -> a = b.
  Proof. congruence. Qed.
  Lemma ctx_keywords t c its it : InTree tree t -> is_node t = false -> estart t < eend t ->
    ctx_items src tb t c = Ans its -> In it its -> c_kind it = IKeyword -> exists w, In w (kw_of c) /\ c_label it = Text.T w.
  Proof.
    intros T N Ne E Hi K.
    assert (NM : forall s, ctx_items src tb t (ctx_of (AModule s)) = Ans its -> False).
    { intros s Es. destruct (module_names src t s T N Ne) as (its' & E' & F). rewrite Es in E'. injection E' as <-.
      now apply (scope_not_keyword t it (F it Hi)). }
    assert (W : forall l, its = map (plain IKeyword) l -> exists w, In w l /\ c_label it = Text.T w).
    { intros l ->. apply in_map_iff in Hi as (w & <- & Hw). eauto. }
    destruct c; try (exfalso; first [now apply (NM FuncS)|now apply (NM TypeS)|now apply (NM GlobalS)|now apply (NM MemS)|now apply (NM TableS)]);
      try (apply ans_inj in E; match goal with |- context[kw_of ?c] => apply (W (kw_of c)) end; now rewrite <- E).
    - apply ans_inj in E. rewrite <- E in Hi. apply in_map_iff in Hi as (w & <- & _). discriminate.
    - apply ans_inj in E. rewrite <- E in Hi. apply in_map_iff in Hi as (w & <- & _). discriminate.
    - apply ans_inj in E. rewrite <- E in Hi. apply in_map_iff in Hi as (w & <- & _). discriminate.
    - exfalso. destruct (ancestor t MODULE_FIELD_FUNC) as [f|] eqn:A.
      + apply (ancestor_some src) in A as (Kf & Nf & D & Tf); auto.
        destruct (ctx_scope src t ALocal (numbered 0 (locals_space f)) T N Ne) as (its' & E' & F); [apply (Scope_func src t f); [repeat split; auto|exact Tf]|].
        cbn [ctx_of] in E'. rewrite E in E'. injection E' as <-. now apply (scope_not_keyword t it (F it Hi)).
      + cbn [ctx_items] in E. rewrite A in E. injection E as <-. destruct Hi.
    - apply ans_inj in E. rewrite <- E in Hi. apply in_map_iff in Hi as (w & <- & _). discriminate.
    - exfalso. destruct (ctx_scope src t ALabel _ T N Ne (Scope_label src t)) as (its' & E' & F).
      cbn [ctx_of] in E'. rewrite E in E'. injection E' as <-. now apply (scope_not_keyword t it (F it Hi)).
  Qed.

  Definition kws_ok (k : kind) (l : list cmp_ctx) : bool := forallb (fun c => forallb (mayb k) (kw_of c)) l.
  Lemma when_in b l (c : cmp_ctx) : In c (when b l) -> In c l.
  Proof. destruct b; [auto|intros []]. Qed.
  Lemma header_in t b c : In c (header_ctx t b) -> In c header_keywords.
  Proof. unfold header_ctx. destruct (_ && _); [auto|intros []]. Qed.
  Lemma operand_no_kw x n c : In c (operand_ctx x n) -> kw_of c = [].
  Proof.
    unfold operand_ctx. destruct (split_dot x) as [[a b]|];
      repeat match goal with |- context[if ?e then _ else _] => destruct e end; intros H; cbn in H;
      repeat (destruct H as [<-|H]; [reflexivity|]); destruct H.
  Qed.
  Lemma contexts_keywords t p cs c w : parent t = Some p -> tl (ancestors t) = ancestors p -> contexts t p = Ans cs -> In c cs -> In w (kw_of c) ->
    exists f, In f (firstn 3 (tl (ancestors t))) /\ mayb (ekind f) w = true.
  Proof.
    intros P Ea E Hc Hw.
    assert (Hp : forall l, In c l -> kws_ok (ekind p) l = true -> exists f, In f (firstn 3 (tl (ancestors t))) /\ mayb (ekind f) w = true).
    { intros l Hl Ok. exists p. split; [rewrite Ea; unfold ancestors; now left|]. unfold kws_ok in Ok. rewrite forallb_forall in Ok.
      specialize (Ok c Hl). rewrite forallb_forall in Ok. now apply Ok. }
    unfold contexts in E. destruct (ekind p) eqn:K;
      lazymatch type of E with
      | Ans [] = _ => apply ans_inj in E; rewrite <- E in Hc; destruct Hc
      | Ans (when _ _) = _ => apply ans_inj in E; rewrite <- E in Hc; apply when_in in Hc; apply (Hp _ Hc); vm_compute; reflexivity
      | Ans (if _ then [_] else [_]) = _ => apply ans_inj in E; rewrite <- E in Hc;
          match type of Hc with context[if ?e then _ else _] => destruct e end; apply (Hp _ Hc); vm_compute; reflexivity
      | Ans [_] = _ => apply ans_inj in E; rewrite <- E in Hc; apply (Hp _ Hc); vm_compute; reflexivity
      | _ => idtac
      end.
    - destruct (kind_eqb (ekind t) INSTR_NAME).
      + apply ans_inj in E. rewrite <- E in Hc. destruct Hc as [<-|Hc]; [destruct Hw|].
        destruct (parent p) as [g|] eqn:Pg; [|destruct Hc].
        assert (Ag : firstn 3 (tl (ancestors t)) = p :: g :: match parent g with Some h => [h] | None => [] end).
        { rewrite Ea. unfold ancestors, parent in *. destruct (ups p) as [|u us]; [discriminate|]. injection Pg as <-. cbn [firstn ancestors_of ups].
          destruct us; reflexivity. }
        assert (Hg : forall l, In c l -> kws_ok (ekind g) l = true -> exists f, In f (firstn 3 (tl (ancestors t))) /\ mayb (ekind f) w = true).
        { intros l Hl Ok. exists g. split; [rewrite Ag; right; now left|]. unfold kws_ok in Ok. rewrite forallb_forall in Ok.
          specialize (Ok c Hl). rewrite forallb_forall in Ok. now apply Ok. }
        destruct (ekind g) eqn:Kg; try (destruct Hc; fail).
        * destruct (token g KEYWORD); [destruct Hc|]. destruct Hc as [<-|Hc]; [apply (Hg [KwOffset]); [now left|vm_compute; reflexivity]|].
          destruct (parent g) as [h|]; cbn [option_map] in Hc; [|destruct Hc].
          assert (Hh : forall l, In c l -> kws_ok (ekind h) l = true -> exists f, In f (firstn 3 (tl (ancestors t))) /\ mayb (ekind f) w = true).
          { intros l Hl Ok. exists h. split; [rewrite Ag; right; right; now left|]. unfold kws_ok in Ok. rewrite forallb_forall in Ok.
            specialize (Ok c Hl). rewrite forallb_forall in Ok. now apply Ok. }
          destruct (ekind h) eqn:Kh; try (destruct Hc; fail).
          -- apply (Hh [KwMemory] Hc). vm_compute. reflexivity.
          -- destruct (existsb _ _); [destruct Hc|]. apply (Hh [KwTable] Hc). vm_compute. reflexivity.
        * apply header_in in Hc. apply (Hg _ Hc). vm_compute. reflexivity.
      + destruct (token p INSTR_NAME) as [nm|]; [|discriminate]. apply ans_inj in E. rewrite <- E in Hc. apply operand_no_kw in Hc. rewrite Hc in Hw. destruct Hw.
    - destruct (find _ _) as [i|]; [|discriminate]. cbn [aopt abind] in E. destruct (token i INSTR_NAME) as [nm|]; [|discriminate].
      apply ans_inj in E. rewrite <- E in Hc. apply operand_no_kw in Hc. rewrite Hc in Hw. destruct Hw.
    - destruct (parent p) as [g|]; [|discriminate]. apply ans_inj in E. rewrite <- E in Hc.
      assert (kw_of c = []). { destruct (ekind g); cbn in Hc; try (destruct Hc; fail); (destruct Hc as [<-|[]]; reflexivity). }
      rewrite H in Hw. destruct Hw.
    - apply ans_inj in E. rewrite <- E in Hc. destruct (leading_l_paren t); apply (Hp _ Hc); vm_compute; reflexivity.
    - apply ans_inj in E. rewrite <- E in Hc. destruct (leading_l_paren t).
      + destruct (has_child p OFFSET); [apply (Hp _ Hc); vm_compute; reflexivity|].
        destruct (negb (has_child p TABLE_USE)); apply (Hp _ Hc); vm_compute; reflexivity.
      + match type of Hc with context[if ?e then [CFunc] else _] => destruct e end; [apply (Hp _ Hc); vm_compute; reflexivity|].
        apply in_app_or in Hc as [Hc|Hc]; [|apply when_in in Hc]; apply (Hp _ Hc); vm_compute; reflexivity.
    - apply ans_inj in E. rewrite <- E in Hc. apply in_app_or in Hc as [Hc|Hc]; [apply header_in in Hc|apply when_in in Hc]; apply (Hp _ Hc); vm_compute; reflexivity.
    - apply ans_inj in E. rewrite <- E in Hc. destruct (has_child p GLOBAL_TYPE); [|destruct (leading_l_paren t)]; apply (Hp _ Hc); vm_compute; reflexivity.
    - apply ans_inj in E. rewrite <- E in Hc. destruct (leading_l_paren t); apply (Hp _ Hc); vm_compute; reflexivity.
  Qed.
End Doc.

(** ** C36 *)

(** With the cursor after a token of a reference, or where a reference is to
    come, the items are exactly the names in scope of the sort that the
    position asks for, in order. *)
Theorem C36_references_exact src pos t a l : CursorAfter src pos t -> AsksAt t a -> InScopeAt src t a l ->
  exists its, completion src pos = Ans its
    /\ Forall2 (Offered src (at_dollar t) a) (if at_dollar t then filter named_entry l else l) its.
Proof. apply references_exact. Qed.

Lemma completion_parts src pos its : completion src pos = Ans its ->
  exists t p cs ls, CursorAfter src pos t /\ parent t = Some p /\ contexts t p = Ans cs
    /\ map_ans (ctx_items src (the_table src) t) cs = Ans ls /\ its = concat ls.
Proof.
  intros H. unfold completion in H. destruct (find_token src pos) as [t| |] eqn:C; try discriminate. cbn [abind] in H.
  destruct (parent t) as [p|] eqn:P; [|discriminate]. cbn [aopt abind] in H.
  destruct (contexts t p) as [cs| |] eqn:E; try discriminate. cbn [abind] in H.
  destruct cs as [|c cs]; [discriminate|]. rewrite symbols_spec in H. cbn [abind] in H.
  destruct (map_ans (ctx_items src (the_table src) t) (c :: cs)) as [ls| |] eqn:M; try discriminate. cbn [abind] in H.
  apply ans_inj in H. exists t, p, (c :: cs), ls. apply find_token_spec in C. auto.
Qed.

(** At any position, every item is a word of the language or a name in scope
    at the token before the cursor. *)
Theorem C36_offers_in_scope src pos its it : completion src pos = Ans its -> In it its ->
  exists t, CursorAfter src pos t /\ (Word it \/ InScopeItem src t it).
Proof.
  intros H Hi. destruct (completion_parts src pos its H) as (t & p & cs & ls & C & P & E & M & ->).
  destruct (cursor_after_tok src pos t C) as (T & N & Ne). exists t. split; [exact C|].
  destruct (items_sound src t cs T N Ne) as (ls' & M' & _ & S). rewrite M in M'. apply ans_inj in M'. subst ls'. now apply S.
Qed.

(** Every keyword offered belongs to one of the three innermost forms around
    the token. *)
Theorem C36_keywords src pos its it : completion src pos = Ans its -> In it its -> c_kind it = IKeyword ->
  exists t f w, CursorAfter src pos t /\ In f (firstn 3 (tl (ancestors t))) /\ c_label it = Text.T w /\ May (ekind f) w.
Proof.
  intros H Hi K. destruct (completion_parts src pos its H) as (t & p & cs & ls & C & P & E & M & ->).
  destruct (cursor_after_tok src pos t C) as (T & N & Ne).
  destruct (items_sound src t cs T N Ne) as (ls' & M' & F & _). rewrite M in M'. apply ans_inj in M'. subst ls'.
  apply in_concat in Hi as (its & Hl & Hi). destruct (Forall2_pick _ _ _ its F Hl) as (c & Hc & Ec).
  destruct (ctx_keywords src t c its it T N Ne Ec Hi K) as (w & Hw & Lw).
  destruct (token_parent src t T N) as (p' & P' & _ & _ & _ & Ea). assert (p' = p) by congruence. subst p'.
  destruct (contexts_keywords t p cs c w P Ea E Hc Hw) as (f & Hf & Mf). exists t, f, w. repeat split; auto. now apply mayb_ok.
Qed.

(** Completion panics exactly when the position is past the end of the tree. *)
Theorem C36_panics_iff src pos : completion src pos = Panics
  <-> exists x, offset (new_line_index src) pos = Some x /\ tlen (gtext (tree_of src)) < x.
Proof.
  rewrite <- find_token_panics. unfold completion. destruct (find_token src pos) as [t| |] eqn:C; cbn [abind]; [|split; discriminate|split; reflexivity].
  split; [|discriminate]. intros H. exfalso. apply find_token_spec in C. destruct (cursor_after_tok src pos t C) as (T & N & Ne).
  destruct (parent t) as [p|]; [|discriminate]. cbn [aopt abind] in H. pose proof (contexts_not_panics t p) as Z.
  destruct (contexts t p) as [cs| |]; try discriminate; [|now apply Z]. cbn [abind] in H. destruct cs as [|c cs]; [discriminate|].
  rewrite symbols_spec in H. cbn [abind] in H. destruct (items_sound src t (c :: cs) T N Ne) as (ls & M & _). rewrite M in H. discriminate.
Qed.

(** ** Examples *)

Definition left_of (src : text) (pos : nat * nat) : elem :=
  match find_token src pos with Ans t => t | _ => root_of (tree_of src) end.
Lemma left_cursor src pos : match find_token src pos with Ans _ => true | _ => false end = true -> CursorAfter src pos (left_of src pos).
Proof. intros H. apply find_token_spec. unfold left_of. destruct (find_token src pos); [reflexivity|discriminate|discriminate]. Qed.
Lemma left_module src pos : CursorAfter src pos (left_of src pos) ->
  match ancestor (left_of src pos) MODULE with Some _ => true | None => false end = true ->
  exists m, in_module (left_of src pos) m /\ InTree (tree_of src) m.
Proof.
  intros C H. destruct (cursor_after_tok src pos _ C) as (T & N & _). destruct (ancestor (left_of src pos) MODULE) as [m|] eqn:A; [|discriminate].
  exists m. apply (ancestor_some src) in A as (K & Nm & D & Tm); auto. repeat split; auto.
Qed.
Definition labels (l : ans (list item)) : list (text * option text) :=
  match l with Ans l => map (fun it => (c_label it, c_insert it)) l | _ => [] end.

Definition cmp_ex : text :=
  Text.T "(module (type $a (func)) (func $f) (func (param $x i32) (local i64) (block $b (loop (br 0))) (local.get 0) (call $f)))".
(** At [call $|]: the named functions, inserted without the dollar sign. *)
Example C36_case_call : let pos := (0, 114) in let t := left_of cmp_ex pos in
  CursorAfter cmp_ex pos t /\ at_dollar t = true /\ AsksAt t (AModule FuncS)
  /\ (exists l, InScopeAt cmp_ex t (AModule FuncS) l)
  /\ labels (completion cmp_ex pos) = [(Text.T "$f", Some (Text.T "f"))].
Proof.
  intros pos t. assert (C : CursorAfter cmp_ex pos t) by (apply left_cursor; vm_compute; reflexivity).
  split; [exact C|]. split; [vm_compute; reflexivity|]. split; [|split; [|vm_compute; reflexivity]].
  - apply At_reference with (n := par t); [vm_compute; reflexivity|by_instr Asks_call (par t)|].
    intros p Hp. assert (E : option_map ekind (parent (par t)) = Some PLAIN_INSTR) by (vm_compute; reflexivity).
    rewrite Hp in E. cbn [option_map] in E. injection E as E. rewrite E. discriminate.
  - destruct (left_module cmp_ex pos C) as (m & M & Tm); [vm_compute; reflexivity|]. eexists. exact (Scope_module cmp_ex t FuncS m M Tm).
Qed.
(** At [br 0]: the loop without a label as 0, then the block. *)
Example C36_case_label : let pos := (0, 89) in let t := left_of cmp_ex pos in
  CursorAfter cmp_ex pos t /\ AsksAt t ALabel /\ InScopeAt cmp_ex t ALabel (numbered 0 (enclosing_blocks t))
  /\ labels (completion cmp_ex pos) = [(Text.T "0", None); (Text.T "$b", None)].
Proof.
  intros pos t. assert (C : CursorAfter cmp_ex pos t) by (apply left_cursor; vm_compute; reflexivity).
  split; [exact C|]. split; [|split; [constructor|vm_compute; reflexivity]].
  apply At_reference with (n := par t); [vm_compute; reflexivity|by_instr Asks_label (par t)|].
  intros p Hp. assert (E : option_map ekind (parent (par t)) = Some PLAIN_INSTR) by (vm_compute; reflexivity).
  rewrite Hp in E. cbn [option_map] in E. injection E as E. rewrite E. discriminate.
Qed.
(** After an opening parenthesis in a module: its keywords. *)
Example C36_case_keywords : map fst (labels (completion (Text.T "(module (") (0, 9)))
  = map Text.T ["func"; "type"; "import"; "table"; "memory"; "global"; "export"; "start"; "elem"; "data"]%string.
Proof. vm_compute. reflexivity. Qed.

(** ** What does not hold *)

(** The reference of a data segment to its memory is not completed. *)
Theorem C36_every_reference_refuted :
  ~ (forall src pos t n s m, CursorAfter src pos t -> parent t = Some n -> Asks n (AModule s) -> in_module t m -> InTree (tree_of src) m ->
       exists its, completion src pos = Ans its).
Proof.
  intros H. set (src := Text.T "(module (memory $m 1) (data (memory $m) (offset)))"). set (pos := (0, 37)).
  assert (C : CursorAfter src pos (left_of src pos)) by (apply left_cursor; vm_compute; reflexivity).
  destruct (left_module src pos C) as (m & M & Tm); [vm_compute; reflexivity|].
  destruct (H src pos (left_of src pos) (par (left_of src pos)) MemS m C) as (its & E); [vm_compute; reflexivity| |exact M|exact Tm|].
  - apply Asks_mem_index with (p := par (par (left_of src pos))); vm_compute; auto.
  - assert (Z : match completion src pos with NoAns => true | _ => false end = true) by (vm_compute; reflexivity).
    rewrite E in Z. discriminate Z.
Qed.

(** The number offered for a definition without a name is its position among
    all definitions of the module, not its index. *)
Theorem C36_numbers_refuted :
  ~ (forall src pos t s m i d its it, CursorAfter src pos t -> AsksAt t (AModule s) -> in_module t m -> InTree (tree_of src) m ->
       completion src pos = Ans its -> In it its -> nth_error (definitions_of s m) i = Some d -> definitions_of s m = [d] ->
       c_label it = show_N (N.of_nat i)).
Proof.
  intros H. set (src := Text.T "(module (type (func)) (func (call 0)))"). set (pos := (0, 35)).
  assert (C : CursorAfter src pos (left_of src pos)) by (apply left_cursor; vm_compute; reflexivity).
  destruct (left_module src pos C) as (m & M & Tm); [vm_compute; reflexivity|].
  assert (A : AsksAt (left_of src pos) (AModule FuncS)).
  { apply At_reference with (n := par (left_of src pos)); [vm_compute; reflexivity|by_instr Asks_call (par (left_of src pos))|].
    intros p Hp. assert (E : option_map ekind (parent (par (left_of src pos))) = Some PLAIN_INSTR) by (vm_compute; reflexivity).
    rewrite Hp in E. cbn [option_map] in E. injection E as E. rewrite E. discriminate. }
  assert (L : labels (completion src pos) = [(Text.T "1", None)]) by (vm_compute; reflexivity).
  destruct (completion src pos) as [its| |] eqn:E; try discriminate L.
  destruct its as [|it [|it' its]]; try discriminate L. cbn [labels map] in L. injection L as L _.
  destruct (cursor_after_tok src pos _ C) as (T & N & _).
  assert (Em : ancestor (left_of src pos) MODULE = Some m) by now apply (ancestor_module src).
  assert (D : length (definitions_of FuncS match ancestor (left_of src pos) MODULE with Some m => m | None => left_of src pos end) = 1) by (vm_compute; reflexivity).
  rewrite Em in D. destruct (definitions_of FuncS m) as [|d [|d' l]] eqn:Ed; try discriminate D.
  specialize (H src pos _ FuncS m 0 d [it] it C A M Tm E (or_introl eq_refl)). rewrite Ed in H. specialize (H eq_refl eq_refl).
  rewrite L in H. discriminate H.
Qed.
Print Assumptions C36_references_exact.
Print Assumptions C36_offers_in_scope.
Print Assumptions C36_keywords.
Print Assumptions C36_panics_iff.
Print Assumptions C36_every_reference_refuted.
Print Assumptions C36_numbers_refuted.
