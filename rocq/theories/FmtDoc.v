(** What the formatter prints for a node and for a document. *)

From Coq Require Import String List NArith Bool Arith Lia.
From Verif Require Import Text Kind Green SpecParser SpecSyntax SpecFormat Format FmtLang FmtPieces FmtSteps FmtTrivia FmtRun FmtNode FmtTree.
Import ListNotations.

Section Opts.
  Variable o : options.

  Lemma no_production k cs : WF o (Node k cs) -> ordinary k = Nd ROOT -> False.
  Proof.
    intros HW E. destruct (proj1 HW _ _ (Sub_here _)) as (_ & Hm & _). rewrite E in Hm.
    apply m_nd in Hm as (c & Ec).
    assert (Hin : In (Node ROOT c) cs).
    { assert (X : In (Node ROOT c) (filter significant cs)) by (rewrite Ec; now left). now apply filter_In in X. }
    pose proof (WF_children o _ _ HW) as HC. unfold WFs in HC. rewrite Forall_forall in HC.
    destruct (proj1 (HC _ Hin) _ _ (Sub_here _)) as (X & _). now apply X.
  Qed.

  Lemma all_print : forall g, Prints o g.
  Proof.
    apply green_ind'.
    - intros k t. apply Prints_tok.
    - intros k cs HP HW _ outer Ho.
      destruct (existsb (kind_eqb k) part_kinds) eqn:Ek.
      { apply existsb_exists in Ek as (k' & Hin & E). apply kind_eqb_eq in E. subst k'. now apply parts_good. }
      destruct k; try discriminate Ek; try (exfalso; exact (no_production _ _ HW eq_refl)); clear Ek.
      all: try (exfalso; destruct (proj1 HW _ _ (Sub_here _)) as (X & _); now apply X).
      all: try (eapply whole_good; [exact HW|cbv; intuition discriminate|reflexivity|reflexivity|reflexivity]).
      all: try (eapply choice_good; [exact HW|cbv; intuition discriminate|reflexivity| |exact HP|exact Ho|reflexivity]; reflexivity).
      + now apply global_good.
      + now apply type_use_good.
  Qed.

  Lemma module_starts cs outer : WF o (Node MODULE cs) -> should_ignore o outer = false ->
    exists r, pcs (gdoc o outer (Node MODULE cs)) = PT (T "(") :: r.
  Proof.
    intros HW Ho. destruct (proj1 HW _ _ (Sub_here _)) as (_ & Hm & _).
    assert (Hin : In MODULE part_kinds) by (cbn; tauto).
    pose proof part_kinds_ok as X. rewrite forallb_forall in X. pose proof (X _ Hin) as Hk.
    unfold kind_ok in Hk. destruct (shape_of MODULE) as [[| |l c nest|]|] eqn:Hsh; try discriminate.
    destruct (alts (ordinary MODULE)) as [a|] eqn:Ha; [|discriminate].
    destruct (alts_ok _ _ _ Ha Hm) as (segs & gs & H1 & H2 & H3).
    assert (HP : Forall (Prints o) cs) by (apply Forall_forall; intros; apply all_print).
    assert (HN : NodeInv o (items o outer None None cs) (pcs (gdoc o outer (Node MODULE cs)))) by (eapply parts_inv; eauto).
    destruct HN as (_ & _ & _ & N1 & _). clear H3 H2 H1.
    assert (E : exists t y, filter significant cs = Tok L_PAREN t :: y) by (apply m_form in Hm as (t & y & E); eauto).
    destruct E as (t & y & E).
    set (its := items o outer None None cs) in *.
    assert (Em : map i_el (sigs its) = filter significant cs).
    { rewrite sigs_map. unfold its. now rewrite items_el. }
    rewrite E in Em. change (filter (fun i => significant (i_el i)) its) with (sigs its) in *.
    destruct (sigs its) as [|i r] eqn:Ei; [discriminate|].
    injection Em as Ei2 _. apply (N1 i r eq_refl). exists t. exact Ei2.
  Qed.

  (** ** Documents *)

  Definition opens (q : list piece) : Prop :=
    match q with [] => False | PT u :: _ => cls_of u <> KAtom | _ => True end.
  Lemma module_ends cs outer : lastp (pcs (gdoc o outer (Node MODULE cs))) = Some (PT (T ")")).
  Proof.
    rewrite gdoc_node. unfold node_doc. cbn [gkind]. change (kind_eqb MODULE ROOT) with false. cbv iota.
    set (its := items o outer None None cs). cbn [shape_of].
    unfold Format.form. cbn [shape_doc].
    match goal with |- context [run_parts ?a ?b ?c ?d] => destruct (run_parts a b c d) as [docs tr] end.
    cbn [close pcs]. rewrite app_assoc.
    change (lastp (pcsl ((docs ++ tr) ++ [DText (T ")")])) = Some (PT (T ")"))).
    rewrite pcsl_app, lastp_app. reflexivity.
  Qed.
  Lemma junction_opens a q : lastp a = Some (PT (T ")")) -> opens q -> junction a q.
  Proof.
    unfold junction. intros -> H. destruct q as [|[u| |] q]; cbn [adj opens]; repeat split; auto; discriminate.
  Qed.

  Definition RootEl (g : green) : Prop :=
    match g with
    | Tok k t => is_trivia_kind k = true
    | Node k _ => k = MODULE
    end.

  Lemma gap_lines t : has_lf t = true -> exists n, count_lf t = S n.
  Proof.
    unfold has_lf, count_lf. induction t as [|c t IH]; [discriminate|]. cbn [existsb filter].
    destruct (N.eqb c_lf c) eqn:E; cbn [orb].
    - intros _. apply N.eqb_eq in E. subst c. cbn. eauto.
    - intros H. replace (N.eqb c c_lf) with false; [now apply IH|]. now rewrite N.eqb_sym.
  Qed.

  Lemma pcsl_one d : pcsl [d] = pcs d.
  Proof. cbn [pcsl flat_map]. apply app_nil_r. Qed.
  Lemma pcsl_text t : LexOK t -> pcsl [DText t] = [PT t].
  Proof. intros H. rewrite pcsl_one. now apply text_not_space. Qed.

  Lemma root_ok cs : WFs o cs -> forall l pre p1 p2 prev first,
    cs = pre ++ l -> known cs p1 -> known cs p2 -> Forall RootEl l -> run_end l = true ->
    let q := pcsl (root_docs o prev first (items o None p1 p2 l) ++ [DNewLine]) in
    okp q /\ texts q = leaves_l o (map keep l) /\ opens q
    /\ (first = false -> l = [] \/ ws_lf l = true -> linestart q).
  Proof.
    intros HW. induction l as [|g l IH]; intros pre p1 p2 prev first E K1 K2 HR Hr q.
    - subst q. cbn. auto.
    - inversion HR as [|? ? Hg HR']; subst. cbn [run_end] in Hr. apply andb_prop in Hr as [Hr1 Hr2].
      set (cs := pre ++ g :: l) in *.
      assert (Hin : In g cs) by (unfold cs; apply in_elt).
      assert (Kg : known cs (Some g)) by (right; eauto).
      assert (HWg : WF o g) by (unfold WFs in HW; rewrite Forall_forall in HW; auto).
      specialize (IH (pre ++ [g]) (Some g) p1 (gkind g) false ltac:(unfold cs; now rewrite <- app_assoc) Kg K1 HR' Hr2).
      cbn zeta in IH. destruct IH as (I1 & I2 & I3 & I4). specialize (I4 eq_refl).
      pose proof (known_ignore o cs p2 HW K2) as Hi.
      assert (Hi2 : should_ignore o (or_else p2 None) = false) by (destruct p2; [exact Hi|reflexivity]).
      unfold q. cbn [items root_docs i_el i_prev i_doc]. clear q. rewrite <- app_assoc, pcsl_app.
      set (q := pcsl (root_docs o (gkind g) false (items o None (Some g) p1 l) ++ [DNewLine])) in *.
      assert (Htx : forall x, texts x = leaves o (keep g) -> texts (x ++ q) = leaves_l o (map keep (g :: l))).
      { intros x Ex. rewrite texts_app, Ex, I2. reflexivity. }
      destruct g as [k t|k c].
      + apply WF_tok in HWg as (Hne & Hlf & _). cbn [RootEl] in Hg.
        destruct k; try discriminate Hg.
        * (* white space *)
          assert (Hlv : texts [] = leaves o (keep (Tok WHITESPACE t))) by reflexivity.
          destruct (first || nilb (items o None (Some (Tok WHITESPACE t)) p1 l)) eqn:Ef.
          -- cbn [pcsl flat_map app]. split; [exact I1|]. split; [now apply (Htx [])|]. split; [exact I3|].
             intros -> _. apply I4. left. destruct l; [reflexivity|discriminate Ef].
          -- assert (Hb : forall x, Forall (fun p => p = PS \/ p = PN) x -> x <> [] ->
               (has_lf t = true -> linestart x) ->
               okp (x ++ q) /\ texts (x ++ q) = leaves_l o (map keep (Tok WHITESPACE t :: l)) /\ opens (x ++ q)
               /\ (first = false -> Tok WHITESPACE t :: l = [] \/ ws_lf (Tok WHITESPACE t :: l) = true -> linestart (x ++ q))).
             { intros x Hx Hn Hl. destruct (blanks_ok _ Hx) as (B1 & B2 & B3). split; [|split; [|split]].
               - apply okp_app; auto. now apply junction_free.
               - apply Htx. rewrite B2. reflexivity.
               - destruct Hx as [|p x [->| ->] _]; [congruence|exact I|exact I].
               - intros _ [D|D]; [discriminate|]. specialize (Hl D). destruct x; [contradiction|exact Hl]. }
             destruct (count_lf t) as [|n] eqn:Ec.
             ++ assert (Hl0 : has_lf t = true -> False) by (intros Hx; apply gap_lines in Hx as (n & En); congruence).
                destruct (kind_eqb prev LINE_COMMENT); apply Hb.
                all: try (intros Hx; now apply Hl0 in Hx). all: try discriminate.
                all: constructor; auto.
             ++ destruct (gap_pieces t) as (G1 & G2 & G3). apply Hb; auto.
        * (* line comment *)
          destruct (line_text_ok o t Hlf) as [L1 L2]. rewrite (pcsl_text _ L1).
          assert (Hq : linestart q).
          { apply I4. destruct l as [|x l]; [now left|]. right. exact Hr1. }
          split; [|split; [|split]].
          -- cbn [app okp]. split; [exact L1|]. split; [|exact I1]. destruct q as [|[u| |] q']; try contradiction. exact I.
          -- apply Htx. reflexivity.
          -- cbn [app opens]. rewrite L2. discriminate.
          -- intros _ [D|D]; discriminate.
        * (* block comment *)
          destruct (block_text_ok o t Hlf) as [L1 L2]. rewrite (pcsl_text _ L1).
          split; [|split; [|split]].
          -- apply okp_app; [cbn; auto|exact I1|]. apply junction_free. cbn. exact L2.
          -- apply Htx. reflexivity.
          -- cbn [app opens]. rewrite L2. discriminate.
          -- intros _ [D|D]; discriminate.
      + cbn [RootEl] in Hg. subst k. rewrite Hi2. rewrite (proj2 (kind_eqb_eq MODULE MODULE) eq_refl).
        destruct (all_print (Node MODULE c) HWg eq_refl p2 Hi) as (P1 & P2 & P3 & _).
        destruct (module_starts c p2 HWg Hi) as (r & Er).
        rewrite pcsl_one. split; [|split; [|split]].
        * apply okp_app; auto. apply junction_opens; [apply module_ends|exact I3].
        * now apply Htx.
        * rewrite Er. cbn. discriminate.
        * intros _ [D|D]; discriminate.
  Qed.

  Theorem document_ok cs : WFs o cs -> Forall RootEl cs -> run_end cs = true ->
    let q := pcs (gdoc o None (Node ROOT cs)) in okp q /\ texts q = leaves o (keep (Node ROOT cs)).
  Proof.
    intros HW HR Hr q. unfold q. rewrite gdoc_node. unfold node_doc. cbn [gkind].
    rewrite (proj2 (kind_eqb_eq ROOT ROOT) eq_refl). unfold root_doc.
    destruct (root_ok cs HW cs [] None None WHITESPACE true eq_refl (or_introl eq_refl) (or_introl eq_refl) HR Hr)
      as (A & B & _). split; [exact A|]. rewrite keep_leaves. exact B.
  Qed.
End Opts.
