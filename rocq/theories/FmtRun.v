(** The interpreter of the formatter's tables prints the children of a node
    in order, with the comments between them. *)

From Coq Require Import String List NArith Bool Arith Lia.
From Verif Require Import Text Kind Green SpecParser SpecSyntax SpecFormat Format FmtLang FmtPieces FmtSteps FmtTrivia.
Import ListNotations.

Section Opts.
  Variable o : options.

  Definition gap (i : item) : list text := leaves_l o (trail (i_next i)).
  Definition kept (i : item) : list text := leaves o (keep (i_el i)).
  Fixpoint walk (q : list text) (l : list item) : list text :=
    match l with [] => [] | i :: r => q ++ kept i ++ walk (gap i) r end.
  Definition gapo (l : list item) : list text := match rev l with i :: _ => gap i | [] => [] end.
  Lemma gapo_snoc d i : gapo (d ++ [i]) = gap i.
  Proof. unfold gapo. now rewrite rev_app_distr. Qed.
  Lemma walk_snoc q d i : walk q (d ++ [i]) = walk q d ++ (if nilb d then q else gapo d) ++ kept i.
  Proof.
    revert q. induction d as [|j d IH]; intros q; cbn [walk app nilb].
    - now rewrite app_nil_r.
    - rewrite IH, <- !app_assoc. do 3 f_equal. destruct d as [|j' d]; [reflexivity|].
      cbn [nilb]. f_equal. unfold gapo. cbn [rev]. destruct (rev d) as [|x y]; reflexivity.
  Qed.

  Definition lpar (i : item) : Prop := exists t, i_el i = Tok L_PAREN t.
  Definition inst (i : item) : Prop := exists k cs, i_el i = Node k cs /\ existsb (kind_eqb k) instr_kinds = true.

  Record ItemOK (i : item) : Prop :=
    { IO_ok : okp (pcs (i_doc i)); IO_closed : closedp (pcs (i_doc i))
    ; IO_texts : texts (pcs (i_doc i)) = kept i
    ; IO_tok : forall k t, i_el i = Tok k t -> significant (i_el i) = true ->
        i_doc i = DText t /\ LexOK t /\ cls_of t <> KLine /\ kept i = [t]
    ; IO_par : forall k t, i_el i = Tok k t -> (k = L_PAREN -> t = T "(") /\ (k = R_PAREN -> t = T ")")
    ; IO_start : forall k cs, i_el i = Node k cs ->
        (k = PARAM \/ k = RESULT -> exists r, pcs (i_doc i) = PT (T "(") :: r)
        /\ (k = ELEM_EXPR \/ k = OFFSET -> has (STok KEYWORD) (i_el i) = false ->
            pcs (i_doc i) = [] \/ linestart (pcs (i_doc i)))
        /\ (k = BLOCK_IF_THEN -> has (STok L_PAREN) (i_el i) = false ->
            pcs (i_doc i) = [] \/ linestart (pcs (i_doc i)))
    ; IO_after : AfterOK (after o i) (gap i)
    ; IO_prev : should_ignore o (i_prev i) = false }.

  Record Inv (P0 : list piece) (st : fstate) (done : list item) : Prop :=
    { I_ok : okp (P0 ++ pcsl (fst st)); I_closed : closedp (P0 ++ pcsl (fst st))
    ; I_texts : texts (P0 ++ pcsl (fst st)) = walk [] done
    ; I_tr : AfterOK (snd st) (gapo done)
    ; I_empty : done = [] -> P0 ++ pcsl (fst st) = [] /\ snd st = []
    ; I_open : forall i, done = [i] -> lpar i -> P0 ++ pcsl (fst st) = [PT (T "(")]
    ; I_head : forall i r, done = i :: r -> lpar i -> exists r', P0 ++ pcsl (fst st) = PT (T "(") :: r'
    ; I_instr : forall i r, done = i :: r -> inst i -> exists r', P0 ++ pcsl (fst st) = PN :: r' }.

  Record Cond (P0 : list piece) (s : step) (paren first : bool) (done : list item) (i : item) : Prop :=
    { C_lit : forall x, s_lit s = Some x -> exists k, i_el i = Tok k (T x)
    ; C_sig : significant (i_el i) = true
    ; C_inst : inst i -> s_lead s = LHard
    ; C_lpar : lpar i -> s_lead s = LTight
    ; C_lead :
        match s_lead s with
        | LTight => (exists x, s_lit s = Some x /\ T x = T ")") \/ done = []
                    \/ (exists j k t, done = [j] /\ lpar j /\ i_el i = Tok k t)
        | LKeyworded => exists k cs, i_el i = Node k cs /\ (k = ELEM_EXPR \/ k = OFFSET)
        | LThen => exists cs, i_el i = Node BLOCK_IF_THEN cs
        | LParam | LResult => P0 = [] /\ (first = true -> paren = true \/ done = [])
        | LIndex => P0 = []
        | LFresh => done = []
        | _ => True
        end }.

  (** What is printed for the child itself. *)
  Lemma content_ok P0 s paren first done i : ItemOK i -> Cond P0 s paren first done i ->
    let c := pcsl (content o s i) in
    okp c /\ closedp c /\ texts c = kept i
    /\ (c = pcs (i_doc i))
    /\ (forall k t, i_el i = Tok k t -> c = [PT t]).
  Proof.
    intros H C. cbv zeta.
    assert (A : forall d, pcsl [d] = pcs d) by (intros d; apply app_nil_r).
    assert (E : pcsl (content o s i) = pcs (i_doc i)).
    { unfold content. destruct (s_lit s) as [x|] eqn:El.
      - destruct (C_lit _ _ _ _ _ _ C x El) as (k & Ek).
        destruct (IO_tok _ H k (T x) Ek (C_sig _ _ _ _ _ _ C)) as (-> & _). apply A.
      - destruct (s_lead s); try apply A.
        + rewrite (IO_prev _ H). apply A.
        + rewrite A. destruct (has (STok KEYWORD) (i_el i)); reflexivity. }
    rewrite E. split; [apply H|]. split; [apply H|]. split; [apply H|]. split; [reflexivity|].
    intros k t Ek. destruct (IO_tok _ H k t Ek (C_sig _ _ _ _ _ _ C)) as (-> & L & _).
    now apply text_not_space.
  Qed.

  (** Putting lead and child after what there is. *)
  Lemma join_ok p l c : okp p -> closedp p -> okp l -> freeend l -> okp c -> closedp c ->
    (blankstart l \/ l = [] /\ junction p c) ->
    okp (p ++ l ++ c) /\ closedp (p ++ l ++ c).
  Proof.
    intros P1 P2 L1 L2 C1 C2 H.
    assert (B : closedp (p ++ l)).
    { apply closedp_app; [now apply free_closed|auto]. }
    rewrite app_assoc. split; [|apply closedp_app; auto].
    apply okp_app; auto.
    - apply okp_app; auto. destruct H as [H|[-> _]]; [now apply junction_blank|apply junction_nil].
    - destruct H as [H|[-> H]]; [|now rewrite app_nil_r].
      apply junction_free, freeend_app; [exact L2|]. intros ->. contradiction.
  Qed.

  (** A lead that is the trivia, or some blank if there are none. *)
  Lemma sep_ok d tr q : AfterOK tr q -> d <> [] -> Forall (fun p => p = PS \/ p = PN) d ->
    forall l, pcsl l = d ->
    let r := pcsl (or_trivias l tr) in blankstart r /\ okp r /\ freeend r /\ texts r = q.
  Proof.
    intros H Hd Hb l El. cbv zeta. unfold or_trivias. destruct H as [[-> ->]|(H & H1 & H2 & H3 & H4)].
    - cbn [nilb]. rewrite El. destruct (blanks_ok d Hb) as (B1 & B2 & B3).
      split; [|auto]. destruct d as [|p d]; [congruence|]. inversion Hb as [|? ? [->| ->] _]; exact I.
    - destruct tr as [|x tr]; [congruence|]. cbn [nilb]. auto.
  Qed.

  Definition LeadOK (p : list piece) (l : list piece) (c : list piece) (q : list text) : Prop :=
    okp l /\ freeend l /\ texts l = q /\ (blankstart l \/ l = [] /\ junction p c).

  Lemma tr_lead p tr q c : AfterOK tr q -> (tr = [] -> junction p c) -> LeadOK p (pcsl tr) c q.
  Proof.
    intros [[-> ->]|(H & H1 & H2 & H3 & H4)] Hj.
    - repeat split; auto.
    - repeat split; auto.
  Qed.

  Lemma sep_lead p tr q c l d : AfterOK tr q -> pcsl l = d -> d <> [] ->
    Forall (fun p => p = PS \/ p = PN) d -> LeadOK p (pcsl (or_trivias l tr)) c q.
  Proof.
    intros H E Hd Hb. destruct (sep_ok d tr q H Hd Hb l E) as (A1 & A2 & A3 & A4). repeat split; auto.
  Qed.

  Lemma lead_ok P0 s paren first done i docs tr : ItemOK i -> Cond P0 s paren first done i ->
    Inv P0 (docs, tr) done ->
    LeadOK (P0 ++ pcsl docs) (pcsl (lead_docs o (s_lead s) paren first docs tr i)) (pcsl (content o s i)) (gapo done).
  Proof.
    intros H C V. destruct (content_ok _ _ _ _ _ _ H C) as (K1 & K2 & K3 & K4 & K5).
    pose proof (I_tr _ _ _ V) as T0. cbn [fst snd] in T0.
    pose proof (I_empty _ _ _ V) as T1. cbn [fst snd] in T1.
    pose proof (C_lead _ _ _ _ _ _ C) as L.
    assert (FS : forall p, Forall (fun q => q = PS \/ q = PN) [p] <-> p = PS \/ p = PN).
    { intros p. split; [intros X; now inversion X|intros X; now constructor]. }
    assert (S1 : forall l p, pcsl l = [p] -> p = PS \/ p = PN ->
      LeadOK (P0 ++ pcsl docs) (pcsl (or_trivias l tr)) (pcsl (content o s i)) (gapo done)).
    { intros l p E Hp. eapply sep_lead; [exact T0|exact E|discriminate|now apply FS]. }
    assert (J0 : done = [] -> forall c, junction (P0 ++ pcsl docs) c).
    { intros E c. destruct (T1 E) as [-> _]. exact I. }
    destruct (s_lead s) eqn:El; cbn [lead_docs].
    - (* LTight *)
      apply tr_lead; [exact T0|]. intros _. destruct L as [(x & Ex & Hx)|[E|(j & k & t & E & Hj & Ek)]].
      + destruct (C_lit _ _ _ _ _ _ C x Ex) as (k & Ek). rewrite (K5 _ _ Ek), Hx.
        apply junction_close; [apply V|reflexivity].
      + now apply J0.
      + rewrite (I_open _ _ _ V j E Hj : P0 ++ pcsl docs = [PT (T "(")]). rewrite (K5 _ _ Ek).
        destruct (IO_tok _ H k t Ek (C_sig _ _ _ _ _ _ C)) as (_ & _ & Hn & _).
        cbn. repeat split; try discriminate. auto.
    - apply (S1 [space] PS); auto.
    - apply (S1 [DNewLine] PN); auto.
    - apply (S1 [DSoft] PS); auto.
    - apply (S1 [DNewLine] PN); auto.
    - (* LKeyworded *)
      destruct L as (k & cs & Ek & Hk).
      destruct (nilb tr && has (STok KEYWORD) (i_el i)) eqn:Eb.
      + apply andb_prop in Eb as [Eb _]. destruct tr; [|discriminate].
        apply (S1 [DNest (indent_width o) DNewLine] PN); auto.
      + apply tr_lead; [exact T0|]. intros ->. cbn [nilb andb] in Eb.
        destruct (proj1 (proj2 (IO_start _ H k cs Ek)) Hk Eb) as [Z|Z]; rewrite K4.
        * rewrite Z. apply junction_nil.
        * now apply junction_line.
    - (* LThen *)
      destruct L as (cs & Ek).
      destruct (nilb tr && has (STok L_PAREN) (i_el i)) eqn:Eb.
      + apply andb_prop in Eb as [Eb _]. destruct tr; [|discriminate].
        apply (S1 [DNewLine] PN); auto.
      + apply tr_lead; [exact T0|]. intros ->. cbn [nilb andb] in Eb.
        destruct (proj2 (proj2 (IO_start _ H _ cs Ek)) eq_refl Eb) as [Z|Z]; rewrite K4.
        * rewrite Z. apply junction_nil.
        * now apply junction_line.
    - destruct (has (SNode instr_kinds) (i_el i)); [apply (S1 [DNewLine] PN)|apply (S1 [space] PS)]; auto.
    - destruct (has (STok KEYWORD) (i_el i)); [apply (S1 [space] PS)|apply (S1 [nested_soft o] PS)]; auto.
    - destruct first; [apply (S1 [nested_soft o] PS)|apply (S1 [space] PS)]; auto.
    - (* LParam *)
      destruct L as [-> L]. destruct first; [|apply (S1 [space] PS); auto].
      destruct tr as [|x tr].
      + destruct docs as [|d docs]; cbn [nilb andb negb].
        * replace (if paren then [] else []) with (@nil doc) by now destruct paren.
          apply tr_lead; [exact T0|]. intros _. exact I.
        * apply (S1 [nested_soft o] PS); auto.
      + cbn [nilb andb]. destruct (L eq_refl) as [->|E]; [|destruct (T1 E); discriminate].
        apply tr_lead; [exact T0|discriminate].
    - (* LResult *)
      destruct L as [-> L]. destruct first; [|apply (S1 [space] PS); auto].
      destruct tr as [|x tr].
      + destruct docs as [|d docs]; cbn [nilb andb negb].
        * replace (if paren then [] else []) with (@nil doc) by now destruct paren.
          apply tr_lead; [exact T0|]. intros _. exact I.
        * apply (S1 [space] PS); auto.
      + cbn [nilb andb]. destruct (L eq_refl) as [->|E]; [|destruct (T1 E); discriminate].
        apply tr_lead; [exact T0|discriminate].
    - (* LIndex *)
      subst P0. destruct docs as [|d docs]; cbn [nilb].
      + destruct tr as [|x tr]; [|change (or_trivias [] (x :: tr)) with (x :: tr)].
        * apply tr_lead; [exact T0|]. intros _. exact I.
        * apply tr_lead; [exact T0|discriminate].
      + apply (S1 [space] PS); auto.
    - (* LFresh *)
      destruct (T1 L) as [_ E]. subst tr. apply (tr_lead _ [] (gapo done)); [exact T0|]. intros _. now apply J0.
  Qed.

  Lemma emit_ok P0 s paren first done i st : ItemOK i -> Cond P0 s paren first done i ->
    Inv P0 st done -> Inv P0 (emit o s paren first i st) (done ++ [i]).
  Proof.
    intros H C V. destruct st as [docs tr].
    destruct (content_ok _ _ _ _ _ _ H C) as (K1 & K2 & K3 & K4 & K5).
    destruct (lead_ok _ _ _ _ _ _ _ _ H C V) as (L1 & L2 & L3 & L4).
    pose proof (I_empty _ _ _ V) as T1. cbn [fst snd] in T1.
    assert (E : P0 ++ pcsl (fst (emit o s paren first i (docs, tr)))
      = (P0 ++ pcsl docs) ++ pcsl (lead_docs o (s_lead s) paren first docs tr i) ++ pcsl (content o s i)).
    { cbn [emit fst]. now rewrite !pcsl_app, <- app_assoc. }
    destruct (join_ok _ _ _ (I_ok _ _ _ V) (I_closed _ _ _ V) L1 L2 K1 K2 L4) as [J1 J2].
    cbn [fst] in J1, J2.
    assert (Z1 : done = [] -> lpar i -> P0 ++ pcsl (fst (emit o s paren first i (docs, tr))) = [PT (T "(")]).
    { intros Ed Hl. rewrite E. destruct (T1 Ed) as [-> ->].
      rewrite (C_lpar _ _ _ _ _ _ C Hl). cbn [lead_docs app]. destruct Hl as (t & Et). rewrite (K5 _ _ Et).
      now rewrite (proj1 (IO_par _ H _ _ Et) eq_refl). }
    split.
    - rewrite E. exact J1.
    - rewrite E. exact J2.
    - rewrite E, !texts_app, L3, K3, walk_snoc, <- texts_app. rewrite (I_texts _ _ _ V : texts (P0 ++ pcsl docs) = _).
      destruct done; reflexivity.
    - rewrite gapo_snoc. cbn [emit snd]. apply H.
    - intros Ed. destruct done; discriminate.
    - intros j Ed Hl. destruct done as [|d done].
      + injection Ed as <-. now apply Z1.
      + destruct done; discriminate.
    - intros j r Ed Hl. destruct done as [|d done].
      + injection Ed as <- <-. exists []. now apply Z1.
      + injection Ed as <- _. destruct (I_head _ _ _ V d done eq_refl Hl) as (r' & Er). cbn [fst] in Er.
        rewrite E, Er. eexists. reflexivity.
    - intros j r Ed Hl. destruct done as [|d done].
      + injection Ed as <- <-. rewrite E. destruct (T1 eq_refl) as [-> ->].
        rewrite (C_inst _ _ _ _ _ _ C Hl). eexists. reflexivity.
      + injection Ed as <- _. destruct (I_instr _ _ _ V d done eq_refl Hl) as (r' & Er). cbn [fst] in Er.
        rewrite E, Er. eexists. reflexivity.
  Qed.

  Lemma emit_all_ok P0 s paren l : forall first done st, Forall ItemOK l ->
    (forall pre i post, l = pre ++ i :: post -> Cond P0 s paren (first && nilb pre) (done ++ pre) i) ->
    Inv P0 st done -> Inv P0 (emit_all o s paren first l st) (done ++ l).
  Proof.
    induction l as [|i l IH]; intros first done st H C V; cbn [emit_all].
    - now rewrite app_nil_r.
    - inversion H as [|? ? H1 H2]; subst.
      change (done ++ i :: l) with (done ++ [i] ++ l). rewrite app_assoc. apply IH; [exact H2| |].
      + intros pre j post E. pose proof (C (i :: pre) j post ltac:(now rewrite E)) as X.
        cbn [nilb] in X. rewrite andb_false_r in X. cbn [andb]. now rewrite <- app_assoc.
      + apply emit_ok; [exact H1| |exact V]. pose proof (C [] i l eq_refl) as X.
        cbn [nilb] in X. now rewrite andb_true_r, app_nil_r in X.
  Qed.

  (** ** From the check of a table to the conditions *)

  Lemma cat_in (parts : list (list item)) idx i : In i (cat parts idx) ->
    exists n, In n idx /\ In i (nth n parts []).
  Proof.
    unfold cat. intros H. apply in_concat in H as (x & Hx & Hi). apply in_map_iff in Hx as (n & <- & Hn). eauto.
  Qed.
  Lemma seg_in segs parts n i : Forall2 (SegM i_el) segs parts -> In i (nth n parts []) ->
    exists y, In y (at_seg segs n) /\ SymM y (i_el i).
  Proof.
    intros H. revert n. induction H as [|g p segs parts Hg _ IH]; intros n Hi.
    - destruct n; destruct Hi.
    - destruct n as [|n]; [|exact (IH n Hi)]. cbn [nth] in Hi. unfold at_seg. cbn [nth].
      destruct g as [y|l]; cbn [SegM seg_syms] in *.
      + destruct Hg as (j & -> & Hm). destruct Hi as [<-|[]]. exists y. split; [now left|exact Hm].
      + rewrite Forall_forall in Hg. apply Hg in Hi as (y & Hy & Hm). eauto.
  Qed.
  Lemma seg_one segs parts n : Forall2 (SegM i_el) segs parts -> is_one (nth n segs (SMany [])) = true ->
    exists i, nth n parts [] = [i].
  Proof.
    intros H. revert n. induction H as [|g p segs parts Hg _ IH]; intros n E.
    - destruct n; discriminate.
    - destruct n as [|n]; [|exact (IH n E)]. cbn [nth] in *. destruct g; [|discriminate].
      destruct Hg as (i & -> & _). eauto.
  Qed.
  Lemma short_cat segs parts idx : Forall2 (SegM i_el) segs parts -> short idx = true ->
    forallb (fun n => is_one (nth n segs (SMany []))) idx = true ->
    cat parts idx = [] \/ exists i, cat parts idx = [i].
  Proof.
    intros H Hs Ho. destruct idx as [|n [|m idx]]; [now left| |discriminate]. cbn [forallb] in Ho.
    rewrite andb_true_r in Ho. destruct (seg_one _ _ _ H Ho) as (i & Ei). right. exists i.
    unfold cat. cbn. now rewrite Ei.
  Qed.

  Lemma step_conds P0 segs parts done nested s idx paren :
    Forall2 (SegM i_el) segs parts ->
    step_check segs done nested s idx = true ->
    (has_lparen_seg segs = true -> paren = true) -> (nested = false -> P0 = []) ->
    forall pre i post, cat parts idx = pre ++ i :: post ->
    ItemOK i -> significant (i_el i) = true -> Cond P0 s paren (nilb pre) (cat parts done ++ pre) i.
  Proof.
    intros HS HC Hp HP pre i post E Hi Hsig. unfold step_check in HC.
    apply andb_prop in HC as [HC C5]. apply andb_prop in HC as [HC C4]. apply andb_prop in HC as [HC C3].
    apply andb_prop in HC as [C1 C2].
    assert (Hin : In i (cat parts idx)) by (rewrite E; apply in_elt).
    destruct (cat_in _ _ _ Hin) as (n & Hn & Hni). destruct (seg_in _ _ _ _ HS Hni) as (y & Hy & Hm).
    set (ys := flat_map (at_seg segs) idx) in *.
    assert (Hys : In y ys) by (apply in_flat_map; eauto).
    assert (Sh : short idx = true -> forallb (fun n => is_one (nth n segs (SMany []))) idx = true -> pre = []).
    { intros S1 S2. destruct (short_cat _ _ _ HS S1 S2) as [Z|(j & Z)]; rewrite Z in E.
      - destruct pre; discriminate.
      - destruct pre as [|a [|b pre]]; [reflexivity|discriminate|discriminate]. }
    assert (Lit : forall x, s_lit s = Some x -> (exists k, i_el i = Tok k (T x)) /\ pre = []).
    { intros x Ex. rewrite Ex in C2. apply andb_prop in C2 as [C2 C2c]. apply andb_prop in C2 as [C2 C2b].
      split; [|auto]. rewrite forallb_forall in C2. specialize (C2 y Hys).
      destruct y as [w|k|k]; cbn [lit_sym] in C2; try discriminate.
      - apply text_eqb_eq in C2. destruct (i_el i) as [k t|]; [|contradiction]. destruct Hm as [-> ->].
        exists KEYWORD. now rewrite C2.
      - destruct (i_el i) as [k' t|] eqn:Ei; [|contradiction]. cbn [SymM] in Hm. subst k'.
        destruct (IO_par _ Hi _ _ Ei) as [A B].
        destruct k; try discriminate; apply text_eqb_eq in C2; eexists; [rewrite (A eq_refl), C2|rewrite (B eq_refl), C2]; reflexivity. }
    assert (Op : match done with [n] => forallb is_lparen_sym (at_seg segs n) && is_one (nth n segs (SMany [])) | _ => false end = true ->
      exists j, cat parts done = [j] /\ lpar j).
    { destruct done as [|m [|m2 done]]; try discriminate. intros X. apply andb_prop in X as [X1 X2].
      destruct (seg_one _ _ _ HS X2) as (j & Ej). exists j.
      split; [unfold cat; cbn; now rewrite Ej|].
      destruct (seg_in segs parts m j HS ltac:(rewrite Ej; now left)) as (y' & Hy' & Hm').
      rewrite forallb_forall in X1. specialize (X1 _ Hy'). destruct y' as [w|k|k]; try discriminate.
      destruct k; try discriminate. destruct (i_el j) as [k t|] eqn:Ej2; [|contradiction]. cbn [SymM] in Hm'. subst k.
      exists t. exact Ej2. }
    assert (Nil : nilb done = true -> cat parts done = []) by (destruct done; [reflexivity|discriminate]).
    assert (NoNil : nilb idx = true -> False).
    { destruct idx; [|discriminate]. intros _. destruct Hn. }
    split.
    - intros x Ex. exact (proj1 (Lit x Ex)).
    - exact Hsig.
    - intros (k & cs & Ek & Hk). rewrite Ek in Hm. destruct y as [w|k'|k']; cbn [SymM] in Hm; try contradiction.
      subst k'. apply orb_prop in C3 as [C3|C3].
      + apply negb_true_iff in C3. exfalso. rewrite <- not_true_iff_false in C3. apply C3.
        apply existsb_exists. exists (YNd k). auto.
      + destruct (s_lead s); try discriminate. reflexivity.
    - intros (t & Ek). rewrite Ek in Hm. destruct y as [w|k'|k']; cbn [SymM] in Hm; try contradiction.
      { destruct Hm; discriminate. }
      subst k'. apply orb_prop in C4 as [C4|C4].
      + apply negb_true_iff in C4. exfalso. rewrite <- not_true_iff_false in C4. apply C4.
        apply existsb_exists. exists (YTk L_PAREN). auto.
      + apply andb_prop in C4 as [C4 _]. destruct (s_lead s); try discriminate. reflexivity.
    - unfold lead_check in C5. fold ys in C5. destruct (s_lead s); try exact I.
      + (* LTight *)
        destruct (s_lit s) as [x|] eqn:Ex.
        * destruct (Lit x eq_refl) as [(k & Ek) ->]. rewrite app_nil_r.
          apply orb_prop in C5 as [C5|C5]; [apply orb_prop in C5 as [C5|C5]; [apply orb_prop in C5 as [C5|C5]|]|].
          -- left. exists x. split; [reflexivity|]. now apply text_eqb_eq.
          -- now apply NoNil in C5.
          -- right; left. now apply Nil.
          -- right; right. destruct (Op C5) as (j & Ej & Hj). exists j, k, (T x). auto.
        * apply orb_prop in C5 as [C5|C5]; [now apply NoNil in C5|].
          apply andb_prop in C5 as [C5 C6]. apply andb_prop in C5 as [C5a C5b]. rewrite (Sh C5a C5b), app_nil_r.
          apply orb_prop in C6 as [C6|C6]; [right; left; now apply Nil|].
          apply andb_prop in C6 as [C6 C7]. destruct (Op C6) as (j & Ej & Hj). right; right.
          rewrite forallb_forall in C7. specialize (C7 y Hys).
          destruct (i_el i) as [k t|] eqn:Ei; [exists j, k, t; auto|].
          destruct y; cbn [SymM] in Hm; try contradiction. discriminate.
      + (* LKeyworded *)
        rewrite forallb_forall in C5. specialize (C5 y Hys). destruct y as [w|k|k]; try discriminate.
        destruct (i_el i) as [k' t|k' cs] eqn:Ei; cbn [SymM] in Hm; [contradiction|]. subst k'. exists k, cs. split; [reflexivity|].
        unfold nd_in in C5. apply existsb_exists in C5 as (x & Hx & Ex). apply kind_eqb_eq in Ex. subst x.
        destruct Hx as [<-|[<-|[]]]; auto.
      + (* LThen *)
        rewrite forallb_forall in C5. specialize (C5 y Hys). destruct y as [w|k|k]; try discriminate.
        destruct (i_el i) as [k' t|k' cs] eqn:Ei; cbn [SymM] in Hm; [contradiction|]. subst k'. exists cs.
        unfold nd_in in C5. apply existsb_exists in C5 as (x & Hx & Ex). apply kind_eqb_eq in Ex. subst x.
        destruct Hx as [<-|[]]; auto.
      + (* LParam *)
        apply andb_prop in C5 as [C5 C6]. apply andb_prop in C5 as [C5 _]. apply negb_true_iff in C5.
        split; [auto|]. destruct pre as [|a pre]; [|discriminate]. rewrite app_nil_r. intros _.
        apply orb_prop in C6 as [C6|C6]; auto.
      + (* LResult *)
        apply andb_prop in C5 as [C5 C6]. apply andb_prop in C5 as [C5 _]. apply negb_true_iff in C5.
        split; [auto|]. destruct pre as [|a pre]; [|discriminate]. rewrite app_nil_r. intros _.
        apply orb_prop in C6 as [C6|C6]; auto.
      + apply negb_true_iff in C5. auto.
      + (* LFresh *)
        apply orb_prop in C5 as [C5|C5]; [now apply NoNil in C5|].
        apply andb_prop in C5 as [C5 C6]. apply andb_prop in C5 as [C5a C5b]. rewrite (Sh C5a C5b), app_nil_r. auto.
  Qed.

  (** ** Running a table *)

  Section Run.
    Variables (its : list item) (segs : list seg) (parts : list (list item)).
    Let E := filter (fun i => significant (i_el i)) its.
    Hypothesis HE : E = concat parts.
    Hypothesis HS : Forall2 (SegM i_el) segs parts.
    Hypothesis HI : Forall ItemOK E.

    Lemma choose_sig s : sel_sig (s_sel s) = true -> choose s its = choose s E.
    Proof.
      intros H. unfold choose.
      replace (filter (fun i => selects (s_sel s) (i_el i)) E) with (filter (fun i => selects (s_sel s) (i_el i)) its); [reflexivity|].
      unfold E. clear HE HI E. induction its as [|i l IH]; [reflexivity|]. cbn [filter].
      destruct (significant (i_el i)) eqn:Es.
      - cbn [filter]. destruct (selects (s_sel s) (i_el i)); congruence.
      - destruct (selects (s_sel s) (i_el i)) eqn:Ex; [|exact IH]. exfalso.
        destruct (i_el i) as [k t|]; [|discriminate]. cbn [significant] in Es. apply negb_false_iff in Es.
        destruct (s_sel s) as [k'|w|ks]; cbn [selects] in Ex.
        + apply kind_eqb_eq in Ex as ->. cbn [sel_sig] in H. now rewrite Es in H.
        + destruct k; discriminate.
        + discriminate.
    Qed.

    Lemma item_in idx i : In i (cat parts idx) -> ItemOK i /\ significant (i_el i) = true.
    Proof.
      intros H. assert (Hin : In i E).
      { rewrite HE. destruct (cat_in _ _ _ H) as (n & _ & Hn). apply in_concat.
        destruct (Nat.lt_ge_cases n (length parts)).
        - exists (nth n parts []). split; [now apply nth_In|exact Hn].
        - rewrite nth_overflow in Hn by lia. destruct Hn. }
      rewrite Forall_forall in HI. split; [now apply HI|]. now apply filter_In in Hin as [_ Hin].
    Qed.

    Lemma paren_ok : has_lparen_seg segs = true -> has_item (STok L_PAREN) its = true.
    Proof.
      intros H. unfold has_lparen_seg in H. apply existsb_exists in H as (g & Hg & Eg).
      assert (A : exists i, In i (concat parts) /\ selects (STok L_PAREN) (i_el i) = true).
      { clear HE HI. revert Hg. induction HS as [|g' p segs' parts' Hg' Hr IH]; intros Hg; [destruct Hg|].
        destruct Hg as [->|Hg].
        - destruct g as [[w|k|k]|]; try discriminate. destruct k; try discriminate.
          destruct Hg' as (i & -> & Hm). exists i. split; [now left|].
          destruct (i_el i); [|contradiction]. cbn [SymM] in Hm. subst k. reflexivity.
        - destruct (IH Hr Hg) as (i & Hi & Hs). exists i. split; [|exact Hs]. cbn [concat]. apply in_or_app. now right. }
      destruct A as (i & Hi & Hs). apply existsb_exists. exists i. split; [|exact Hs].
      rewrite <- HE in Hi. now apply filter_In in Hi.
    Qed.

    Lemma run_step_ok P0 nested s done idx st :
      choose_sym s segs = Some idx -> step_check segs done nested s idx = true ->
      (nested = false -> P0 = []) -> Inv P0 st (cat parts done) ->
      Inv P0 (run_step o its s st) (cat parts (done ++ idx)).
    Proof.
      intros Hc Hk HP V. unfold run_step.
      assert (Hsig : sel_sig (s_sel s) = true).
      { unfold step_check in Hk. repeat (apply andb_prop in Hk as [Hk _]). exact Hk. }
      rewrite (choose_sig _ Hsig), HE, (choose_sym_ok _ _ _ _ HS Hc), cat_app.
      apply emit_all_ok; [| |exact V].
      - apply Forall_forall. intros i Hi. now apply item_in in Hi.
      - intros pre i post Ei. cbn [andb].
        assert (Hin : In i (cat parts idx)) by (rewrite Ei; apply in_elt).
        destruct (item_in _ _ Hin) as [Ho Hs].
        eapply step_conds; eauto using paren_ok.
    Qed.

    Lemma run_steps_ok P0 l : forall done d st, sym_run segs done (map (pair true) l) = Some d ->
      Inv P0 st (cat parts done) -> Inv P0 (run_steps o its l st) (cat parts d).
    Proof.
      induction l as [|s l IH]; intros done d st Hr V.
      - injection Hr as <-. exact V.
      - cbn [map sym_run] in Hr. destruct (choose_sym s segs) as [idx|] eqn:Ec; [|discriminate].
        destruct (step_check segs done true s idx) eqn:Ek; [|discriminate].
        unfold run_steps. cbn [fold_left]. apply (IH (done ++ idx) d); [exact Hr|].
        eapply run_step_ok; eauto. discriminate.
    Qed.

    Lemma sym_run_app a : forall done b d, sym_run segs done (a ++ b) = Some d ->
      exists m, sym_run segs done a = Some m /\ sym_run segs m b = Some d.
    Proof.
      induction a as [|[n s] a IH]; intros done b d Hr; [exists done; auto|].
      cbn [app sym_run] in *. destruct (choose_sym s segs) as [idx|]; [|discriminate].
      destruct (step_check segs done n s idx); [|discriminate]. exact (IH _ _ _ Hr).
    Qed.

    Lemma Inv_shift P0 docs tr d : Inv P0 (docs, tr) d -> Inv (P0 ++ pcsl docs) ([], tr) d.
    Proof.
      intros [V1 V2 V3 V4 V5 V6 V7 V8].
      split; cbn [fst snd] in *; change (pcsl []) with (@nil piece); rewrite ?app_nil_r; assumption.
    Qed.
    Lemma Inv_unshift P0 docs inner new tr d : pcsl new = pcsl inner ->
      Inv (P0 ++ pcsl docs) (inner, tr) d -> Inv P0 (docs ++ new, tr) d.
    Proof.
      intros Hn [V1 V2 V3 V4 V5 V6 V7 V8].
      split; cbn [fst snd] in *; rewrite ?pcsl_app, ?Hn, ?app_assoc; assumption.
    Qed.

    Lemma run_part_ok p done d st : sym_run segs done (steps_of_part p) = Some d ->
      Inv [] st (cat parts done) -> Inv [] (run_part o its p st) (cat parts d).
    Proof.
      intros Hr V. destruct p as [s|f l]; cbn [steps_of_part run_part] in *.
      - cbn [sym_run] in Hr. destruct (choose_sym s segs) as [idx|] eqn:Ec; [|discriminate].
        destruct (step_check segs done false s idx) eqn:Ek; [|discriminate]. injection Hr as <-.
        eapply run_step_ok; eauto.
      - destruct st as [docs tr]. pose proof (run_steps_ok _ l done d ([], tr) Hr (Inv_shift _ _ _ _ V)) as W.
        destruct (run_steps o its l ([], tr)) as [inner tr'].
        destruct (negb f || has_item (STok L_PAREN) its).
        + eapply Inv_unshift; [|exact W]. cbn. now rewrite app_nil_r.
        + eapply Inv_unshift; [|exact W]. reflexivity.
    Qed.

    Lemma run_parts_ok l : forall done d st, sym_run segs done (flat_map steps_of_part l) = Some d ->
      Inv [] st (cat parts done) -> Inv [] (run_parts o its l st) (cat parts d).
    Proof.
      induction l as [|p l IH]; intros done d st Hr V.
      - injection Hr as <-. exact V.
      - cbn [flat_map] in Hr. apply sym_run_app in Hr as (m & H1 & H2). unfold run_parts. cbn [fold_left].
        apply (IH m d); [exact H2|]. exact (run_part_ok _ _ _ _ H1 V).
    Qed.

    Lemma Inv_nil : Inv [] ([], []) [].
    Proof.
      split; cbn; auto; try discriminate; try (intros; discriminate). left. split; reflexivity.
    Qed.

    (** The pieces of a node with parts. *)
    Definition NodeInv (p : list piece) : Prop :=
      okp p /\ closedp p /\ texts p = walk [] E
      /\ (forall i r, E = i :: r -> lpar i -> exists r', p = PT (T "(") :: r')
      /\ (forall i r, E = i :: r -> inst i -> exists r', p = PN :: r')
      /\ (E = [] -> p = []).

    Lemma Inv_node docs tr : Inv [] (docs, tr) E -> NodeInv (pcsl docs).
    Proof.
      intros [V1 V2 V3 V4 V5 V6 V7 V8]. cbn [fst snd app] in *. repeat split; auto. intros H. now apply V5.
    Qed.

    Lemma close_ok l c n : form_ok l c segs = true -> (c = CAppend -> gapo E = []) ->
      NodeInv (pcs (shape_doc o (Node n (map i_el its)) its (Parts l c false))).
    Proof.
      intros H Ha. unfold form_ok in H. apply andb_prop in H as [H1 H2].
      destruct (sym_run segs [] (flat_map steps_of_part (l ++ closing_parts c))) as [d|] eqn:Er; [|discriminate].
      destruct (list_eq_dec Nat.eq_dec d (List.seq 0 (length segs))) as [->|]; [|discriminate].
      pose proof (run_parts_ok _ _ _ _ Er (Inv_nil : Inv [] ([], []) (cat parts []))) as V.
      assert (Len : length segs = length parts) by (clear -HS; induction HS; cbn [length]; auto).
      rewrite Len, cat_all, <- HE in V.
      cbn [shape_doc pcs]. fold (pcsl (close its c (run_parts o its l ([], [])))).
      unfold run_parts in V |- *. rewrite fold_left_app in V.
      destruct (fold_left (fun st p => run_part o its p st) l ([], [])) as [docs tr].
      destruct c; cbn [closing_parts fold_left run_part] in V; cbn [close].
      - destruct (choose_sym close_step segs) as [[|x [|? ?]]|] eqn:Ec; try discriminate.
        unfold run_step in V. rewrite (choose_sig close_step eq_refl), HE, (choose_sym_ok _ _ _ _ HS Ec) in V.
        assert (Hx : exists i, cat parts [x] = [i]).
        { unfold choose_sym in Ec. destruct (selidx (s_sel close_step) 0 segs) as [l0|] eqn:El; [|discriminate].
          destruct (selidx_ok i_el _ _ _ HS 0 [] l0 eq_refl El) as [_ E2]. cbn [s_mode close_step] in Ec.
          destruct l0 as [|[y [|]] l0]; try discriminate. injection Ec as ->. inversion E2 as [|? ? Hx _]; subst.
          destruct (Hx eq_refl) as (i & Hi). exists i. cbn [fst app] in Hi. unfold cat. cbn. now rewrite Hi. }
        destruct Hx as (i & Hx). rewrite Hx in V. cbn [emit_all emit] in V. rewrite <- HE in V.
        exact (Inv_node _ _ V).
      - unfold run_step in V. rewrite (choose_sig close_step eq_refl) in V.
        assert (Hb : has_item (STok R_PAREN) its = negb (nilb (choose close_step E))).
        { rewrite <- (choose_sig close_step eq_refl). unfold choose, has_item. cbn [close_step s_sel s_mode].
          clear. induction its as [|i l IH]; [reflexivity|]. cbn [existsb filter].
          destruct (selects (STok R_PAREN) (i_el i)); [reflexivity|exact IH]. }
        rewrite Hb. unfold choose in V |- *. cbn [close_step s_mode s_sel] in V |- *.
        destruct (filter (fun i => selects (STok R_PAREN) (i_el i)) E) as [|i r]; cbn [firstn] in V |- *.
        + cbn [emit_all] in V. exact (Inv_node _ _ V).
        + cbn [emit_all emit] in V. exact (Inv_node _ _ V).
      - (* CAppend *)
        destruct V as [V1 V2 V3 V4 V5 V6 V7 V8]. cbn [fst snd app] in *. rewrite pcsl_app.
        rewrite (Ha eq_refl) in V4.
        destruct V4 as [[-> _]|(T1 & T2 & T3 & T4 & T5)].
        + change (pcsl []) with (@nil piece). rewrite app_nil_r. repeat split; auto. intros Hn. now apply V5.
        + split; [apply okp_app; auto; now apply junction_blank|].
          split; [apply closedp_app; [now apply free_closed|auto]|].
          split; [now rewrite texts_app, T5, app_nil_r|]. split; [|split].
          * intros i r Ei Hl. destruct (V7 i r Ei Hl) as (r' & ->). eexists. reflexivity.
          * intros i r Ei Hl. destruct (V8 i r Ei Hl) as (r' & ->). eexists. reflexivity.
          * intros Hn. exfalso. now destruct (V5 Hn).
      - exact (Inv_node _ _ V).
    Qed.
  End Run.
End Opts.
