(** What the formatter prints for a node without comments: its children in
    order, and before each child the blank line that stood there, or at most
    one blank or line break. *)

From Coq Require Import String List NArith Bool Arith Lia.
From Verif Require Import Text Kind Green SpecParser SpecSyntax SpecFormat Format FmtLang FmtPieces FmtSteps FmtTrivia FmtRun FmtNode FmtTree FmtDoc.
Import ListNotations.

(** The blanks a list of pieces starts with. *)
Fixpoint front (l : list piece) : list piece :=
  match l with
  | PS :: r => PS :: front r
  | PN :: r => PN :: front r
  | _ => []
  end.
Fixpoint trimp (l : list piece) : list piece :=
  match l with
  | PS :: r | PN :: r => trimp r
  | _ => l
  end.
Definition bare_piece (p : piece) : bool := match p with PT _ => false | _ => true end.
Lemma front_trim l : l = front l ++ trimp l.
Proof. induction l as [|[t| |] l IH]; cbn [front trimp app]; congruence. Qed.
Lemma front_bare l : forallb bare_piece (front l) = true.
Proof. induction l as [|[t| |] l IH]; cbn [front forallb bare_piece]; auto. Qed.
Lemma front_blanks a b : forallb bare_piece a = true -> front (a ++ b) = a ++ front b.
Proof.
  induction a as [|[t| |] a IH]; cbn [forallb bare_piece andb app front]; intros H; try discriminate; try reflexivity;
    now rewrite IH.
Qed.
Lemma trim_blanks a b : forallb bare_piece a = true -> trimp (a ++ b) = trimp b.
Proof. induction a as [|[t| |] a IH]; cbn [forallb bare_piece andb app trimp]; intros H; try discriminate; auto. Qed.
Lemma front_app a b : texts a <> [] -> front (a ++ b) = front a.
Proof. induction a as [|[t| |] a IH]; cbn [texts app front]; intros H; try congruence. now rewrite IH. now rewrite IH. Qed.
Lemma trim_app a b : texts a <> [] -> trimp (a ++ b) = trimp a ++ b.
Proof. induction a as [|[t| |] a IH]; cbn [texts app trimp]; intros H; try congruence; auto. Qed.
Lemma texts_trim l : texts (trimp l) = texts l.
Proof. induction l as [|[t| |] l IH]; cbn [texts trimp]; auto. Qed.

(** Nodes printed with a line break in front: the body of a flat [if] and
    abbreviated expressions. *)
Definition loose (g : green) : bool :=
  match g with Node BLOCK_IF_THEN cs => negb (existsb (selects (STok L_PAREN)) cs) | _ => false end.
Definition special (g : green) : bool :=
  loose g || match g with
             | Node (ELEM_EXPR | OFFSET) cs => negb (existsb (selects (STok KEYWORD)) cs)
             | _ => false
             end.
Definition three : list kind := [ELEM_EXPR; OFFSET; BLOCK_IF_THEN].
Definition in_three (y : sym) : bool := nd_in three y.
Lemma special_kind g : special g = true -> exists k cs, g = Node k cs /\ In k three.
Proof.
  destruct g as [k t|k cs]; [discriminate|]. intros H. exists k, cs. split; [reflexivity|].
  destruct k; try discriminate H; cbn; tauto.
Qed.

Section Opts.
  Variable o : options.

  Definition FrontOK (g : green) (p : list piece) : Prop :=
    length (front p) <= 1 /\ (special g = false -> front p = []) /\ (texts p <> [] \/ loose g = true /\ p = []).
  Definition blank_line : list doc := [DEmptyLine; DNewLine].

  Record ItemOK2 (i : item) : Prop :=
    { IP_ok : ItemOK o i
    ; IP_front : FrontOK (i_el i) (pcs (i_doc i))
    ; IP_after : after o i = [] \/ after o i = blank_line }.

  Definition LeadRel (tr : list doc) (i : item) (l : list piece) : Prop :=
    (tr <> [] -> l = pcsl tr)
    /\ (tr = [] -> (l = [] \/ exists b, l = [b] /\ bare_piece b = true /\ front (pcs (i_doc i)) = [])
                   /\ (loose (i_el i) = true -> l = [])).
  Inductive Ec : list doc -> list item -> list piece -> Prop :=
  | Ec_nil tr : Ec tr [] []
  | Ec_cons tr i r l p : LeadRel tr i l -> Ec (after o i) r p -> Ec tr (i :: r) (l ++ pcs (i_doc i) ++ p).
  Definition afters (tr : list doc) (d : list item) : list doc :=
    match rev d with i :: _ => after o i | [] => tr end.
  Lemma afters_snoc tr d i : afters tr (d ++ [i]) = after o i.
  Proof. unfold afters. now rewrite rev_app_distr. Qed.
  Lemma afters_cons tr d i : afters tr (i :: d) = afters (after o i) d.
  Proof. unfold afters. cbn [rev]. destruct (rev d) as [|x y]; reflexivity. Qed.
  Lemma Ec_snoc tr d p i l : Ec tr d p -> LeadRel (afters tr d) i l -> Ec tr (d ++ [i]) (p ++ l ++ pcs (i_doc i)).
  Proof.
    induction 1 as [tr|tr j r l' p HL HE IH]; intros H.
    - cbn [app]. rewrite <- (app_nil_r (pcs (i_doc i))). constructor; [exact H|constructor].
    - rewrite afters_cons in H. specialize (IH H). cbn [app]. rewrite <- !app_assoc. now constructor.
  Qed.

  Record Inv2 (P0 : list piece) (st : fstate) (done : list item) : Prop :=
    { J_ec : Ec [] done (P0 ++ pcsl (fst st))
    ; J_tr : snd st = afters [] done
    ; J_docs : done = [] -> fst st = []
    ; J_first : forall i r, done = i :: r -> inst i \/ exists r', P0 ++ pcsl (fst st) = pcs (i_doc i) ++ r' }.

  Definition quiet (l : lead) : bool :=
    match l with LTight | LFresh | LParam | LResult | LIndex => true | _ => false end.
  Record Cond2 (s : step) (paren first : bool) (done : list item) (tr : list doc) (i : item) : Prop :=
    { D_lit : forall x, s_lit s = Some x -> exists k, i_el i = Tok k (T x)
    ; D_sig : significant (i_el i) = true
    ; D_kind :
        match s_lead s with
        | LKeyworded => exists k cs, i_el i = Node k cs /\ (k = ELEM_EXPR \/ k = OFFSET)
        | LThen => exists cs, i_el i = Node BLOCK_IF_THEN cs
        | _ => special (i_el i) = false
        end
    ; D_lead :
        match s_lead s with
        | LParam | LResult => first = true -> paren = true \/ tr = []
        | LFresh => tr = []
        | _ => True
        end
    ; D_first : done = [] -> inst i \/ quiet (s_lead s) = true /\ first = true }.

  Lemma content2 s paren first done tr i : ItemOK2 i -> Cond2 s paren first done tr i ->
    pcsl (content o s i) = pcs (i_doc i).
  Proof.
    intros H C. assert (A : forall d, pcsl [d] = pcs d) by (intros d; apply app_nil_r).
    unfold content. destruct (s_lit s) as [x|] eqn:El.
    - destruct (D_lit _ _ _ _ _ _ C x El) as (k & Ek).
      destruct (IO_tok _ _ (IP_ok _ H) k (T x) Ek (D_sig _ _ _ _ _ _ C)) as (-> & _). apply A.
    - destruct (s_lead s); try apply A.
      + rewrite (IO_prev _ _ (IP_ok _ H)). apply A.
      + rewrite A. destruct (has (STok KEYWORD) (i_el i)); reflexivity.
  Qed.

  Lemma has_special s k cs : k = ELEM_EXPR \/ k = OFFSET -> s = STok KEYWORD ->
    special (Node k cs) = negb (has s (Node k cs)).
  Proof. intros [->| ->] ->; reflexivity. Qed.

  Lemma lead2 s paren first done docs tr i : ItemOK2 i -> Cond2 s paren first done tr i ->
    LeadRel tr i (pcsl (lead_docs o (s_lead s) paren first docs tr i))
    /\ (done = [] -> docs = [] -> tr = [] -> inst i \/ pcsl (lead_docs o (s_lead s) paren first docs tr i) = []).
  Proof.
    intros H C. pose proof (D_kind _ _ _ _ _ _ C) as K. pose proof (D_lead _ _ _ _ _ _ C) as L.
    pose proof (IP_front _ H) as (F1 & F2 & _). split.
    2:{ intros Hd -> ->. destruct (D_first _ _ _ _ _ _ C Hd) as [X|[X ->]]; [now left|]. right.
        destruct (s_lead s); try discriminate X; cbn [lead_docs nilb andb negb]; try reflexivity; destruct paren; reflexivity. }
    assert (S1 : forall l p, special (i_el i) = false -> pcsl l = [p] -> bare_piece p = true ->
      LeadRel tr i (pcsl (or_trivias l tr))).
    { intros l p Hs El Hp. split.
      - intros Ht. destruct tr; [congruence|]. reflexivity.
      - intros ->. cbn [or_trivias nilb]. rewrite El. split; [right; exists p; auto|].
        intros Hl. exfalso. unfold special in Hs. rewrite Hl in Hs. discriminate. }
    assert (S2 : LeadRel tr i (pcsl tr)).
    { split; [reflexivity|]. intros ->. split; [now left|reflexivity]. }
    assert (S3 : tr = [] -> LeadRel tr i []).
    { intros ->. split; [congruence|]. split; [now left|reflexivity]. }
    assert (S4 : tr = [] -> special (i_el i) = false -> forall p, bare_piece p = true -> LeadRel tr i [p]).
    { intros -> Hs p Hp. destruct p; [discriminate Hp|exact (S1 [space] PS Hs eq_refl eq_refl)|exact (S1 [DNewLine] PN Hs eq_refl eq_refl)]. }
    destruct (s_lead s) eqn:El; cbn [lead_docs].
    - exact S2.
    - apply (S1 [space] PS); auto.
    - apply (S1 [DNewLine] PN); auto.
    - apply (S1 [DSoft] PS); auto.
    - apply (S1 [DNewLine] PN); auto.
    - destruct K as (k & cs & Ek & Hk). rewrite Ek in *. pose proof (has_special _ k cs Hk eq_refl) as Hs.
      destruct (nilb tr) eqn:Et; [|exact S2]. cbn [andb]. destruct tr; [|discriminate].
      destruct (has (STok KEYWORD) (Node k cs)); [|exact S2]. now apply (S4 eq_refl Hs PN).
    - destruct K as (cs & Ek). rewrite Ek in *.
      destruct (nilb tr) eqn:Et; [|exact S2]. cbn [andb]. destruct tr; [|discriminate].
      destruct (has (STok L_PAREN) (Node BLOCK_IF_THEN cs)) eqn:Eh; [|exact S2]. apply (S4 eq_refl); [|reflexivity].
      unfold special, loose. cbn [has] in Eh. rewrite Eh. reflexivity.
    - destruct (has (SNode instr_kinds) (i_el i)); [apply (S1 [DNewLine] PN)|apply (S1 [space] PS)]; auto.
    - destruct (has (STok KEYWORD) (i_el i)); [apply (S1 [space] PS)|apply (S1 [nested_soft o] PS)]; auto.
    - destruct first; [apply (S1 [nested_soft o] PS)|apply (S1 [space] PS)]; auto.
    - destruct first; [|apply (S1 [space] PS); auto]. destruct (nilb tr) eqn:Et; cbn [andb].
      + destruct tr; [|discriminate]. destruct (negb (nilb docs)); [now apply (S4 eq_refl K PS)|].
        destruct paren; now apply S3.
      + destruct (L eq_refl) as [->| ->]; [exact S2|discriminate].
    - destruct first; [|apply (S1 [space] PS); auto]. destruct (nilb tr) eqn:Et; cbn [andb].
      + destruct tr; [|discriminate]. destruct (negb (nilb docs)); [now apply (S4 eq_refl K PS)|].
        destruct paren; now apply S3.
      + destruct (L eq_refl) as [->| ->]; [exact S2|discriminate].
    - destruct (nilb docs); [|apply (S1 [space] PS); auto]. destruct tr as [|x tr]; [now apply S3|exact S2].
    - now apply S3.
  Qed.

  Lemma emit2 P0 s paren first done i st : ItemOK2 i -> Cond2 s paren first done (snd st) i ->
    Inv2 P0 st done -> Inv2 P0 (emit o s paren first i st) (done ++ [i]).
  Proof.
    intros H C [V1 V2 V3 V4]. destruct st as [docs tr]. cbn [fst snd] in *.
    pose proof (content2 _ _ _ _ _ _ H C) as Ec1. destruct (lead2 _ _ _ _ docs _ _ H C) as [L1 L2].
    assert (E : P0 ++ pcsl (fst (emit o s paren first i (docs, tr)))
      = (P0 ++ pcsl docs) ++ pcsl (lead_docs o (s_lead s) paren first docs tr i) ++ pcs (i_doc i)).
    { cbn [emit fst]. now rewrite !pcsl_app, Ec1, <- app_assoc. }
    split.
    - rewrite E. apply Ec_snoc; [exact V1|]. now rewrite <- V2.
    - now rewrite afters_snoc.
    - intros Z. destruct done; discriminate.
    - intros j r Ej. destruct done as [|d done].
      + injection Ej as <- <-. rewrite E. specialize (V3 eq_refl). subst docs.
        assert (Ep : P0 ++ pcsl [] = []) by now inversion V1. rewrite Ep.
        destruct (L2 eq_refl eq_refl V2) as [X|X]; [now left|]. right. rewrite X. cbn [app]. exists []. now rewrite app_nil_r.
      + injection Ej as <- <-. destruct (V4 d done eq_refl) as [X|(r' & X)]; [now left|]. right. rewrite E, X, <- app_assoc. eauto.
  Qed.

  Lemma emit_all2 P0 s paren l : forall first done st, Forall ItemOK2 l ->
    (forall pre i post, l = pre ++ i :: post -> Cond2 s paren (first && nilb pre) (done ++ pre) (afters [] (done ++ pre)) i) ->
    Inv2 P0 st done -> Inv2 P0 (emit_all o s paren first l st) (done ++ l).
  Proof.
    induction l as [|i l IH]; intros first done st H C V; cbn [emit_all].
    - now rewrite app_nil_r.
    - inversion H as [|? ? H1 H2]; subst.
      change (done ++ i :: l) with (done ++ [i] ++ l). rewrite app_assoc. apply IH; [exact H2| |].
      + intros pre j post E. pose proof (C (i :: pre) j post ltac:(now rewrite E)) as X.
        cbn [nilb] in X. rewrite andb_false_r in X. cbn [andb]. now rewrite <- app_assoc.
      + apply emit2; [exact H1| |exact V]. pose proof (C [] i l eq_refl) as X.
        cbn [nilb] in X. rewrite (J_tr _ _ _ V). now rewrite andb_true_r, app_nil_r in X.
  Qed.

  (** ** The check of a table *)

  Definition any_one (segs : list seg) (l : list nat) : bool := existsb (fun n => is_one (nth n segs (SMany []))) l.
  Definition check2 (tu : bool) (segs : list seg) (done : list nat) (s : step) (idx : list nat) : bool :=
    let ys := flat_map (at_seg segs) idx in
    sel_sig (s_sel s)
    && match s_lit s with Some x => forallb (lit_sym x) ys | None => true end
    && match s_lead s with
       | LKeyworded => forallb (nd_in [ELEM_EXPR; OFFSET]) ys
       | LThen => forallb (nd_in [BLOCK_IF_THEN]) ys
       | _ => forallb (fun y => negb (in_three y)) ys
       end
    && match s_lead s with
       | LParam | LResult => tu || has_lparen_seg segs || nilb done
       | LFresh => nilb idx || (short idx && forallb (fun n => is_one (nth n segs (SMany []))) idx && nilb done)
       | _ => true
       end
    && (nilb idx || any_one segs done || quiet (s_lead s) || forallb is_instr_sym ys).
  Fixpoint run2 (tu : bool) (segs : list seg) (done : list nat) (l : list step) : option (list nat) :=
    match l with
    | [] => Some done
    | s :: r =>
        match choose_sym s segs with
        | Some idx => if check2 tu segs done s idx then run2 tu segs (done ++ idx) r else None
        | None => None
        end
    end.
  Fixpoint parts2 (tu : bool) (segs : list seg) (done : list nat) (l : list part) : option (list nat) :=
    match l with
    | [] => Some done
    | One s :: r =>
        match run2 tu segs done [s] with Some d => parts2 tu segs d r | None => None end
    | Nested _ ss :: r =>
        match run2 tu segs done ss with
        | Some d => if any_one segs d then parts2 tu segs d r else None
        | None => None
        end
    end.
  Definition form2 (tu : bool) (l : list part) (c : closing) (segs : list seg) : bool :=
    match parts2 tu segs [] (l ++ closing_parts c) with
    | Some d => if list_eq_dec Nat.eq_dec d (List.seq 0 (length segs)) then true else false
    | None => false
    end
    && match c with
       | CParen => match choose_sym close_step segs with Some [_] => true | _ => false end
       | _ => true
       end.

  Lemma any_one_cat segs parts l : Forall2 (SegM i_el) segs parts -> any_one segs l = true -> cat parts l <> [].
  Proof.
    intros HS H. unfold any_one in H. apply existsb_exists in H as (n & Hn & H1).
    destruct (seg_one _ _ _ HS H1) as (i & Hi). intros E. assert (X : In i (cat parts l)).
    { unfold cat. apply in_concat. exists (nth n parts []). split; [apply in_map_iff; eauto|]. rewrite Hi. now left. }
    rewrite E in X. destruct X.
  Qed.

  Lemma conds2 tu segs parts done s idx paren :
    Forall2 (SegM i_el) segs parts -> check2 tu segs done s idx = true ->
    (has_lparen_seg segs = true -> paren = true) ->
    (tu = true -> forall i, In i (concat parts) -> after o i = []) ->
    (forall n, In n done -> n < length parts) ->
    forall pre i post, cat parts idx = pre ++ i :: post -> ItemOK2 i -> significant (i_el i) = true ->
    Cond2 s paren (nilb pre) (cat parts done ++ pre) (afters [] (cat parts done ++ pre)) i.
  Proof.
    intros HS HC Hp Htu Hlt pre i post E Hi Hsig. unfold check2 in HC.
    apply andb_prop in HC as [HC C5]. apply andb_prop in HC as [HC C4]. apply andb_prop in HC as [HC C3].
    apply andb_prop in HC as [C1 C2].
    assert (Hin : In i (cat parts idx)) by (rewrite E; apply in_elt).
    destruct (cat_in _ _ _ Hin) as (n & Hn & Hni). destruct (seg_in _ _ _ _ HS Hni) as (y & Hy & Hm).
    set (ys := flat_map (at_seg segs) idx) in *.
    assert (Hys : In y ys) by (apply in_flat_map; eauto).
    assert (NoNil : nilb idx = true -> False).
    { destruct idx; [|discriminate]. intros _. destruct Hn. }
    assert (Nil : nilb done = true -> cat parts done = []) by (destruct done; [reflexivity|discriminate]).
    assert (N3 : forallb (fun y => negb (in_three y)) ys = true -> special (i_el i) = false).
    { intros X. rewrite forallb_forall in X. specialize (X y Hys). apply not_true_iff_false. intros Z.
      apply special_kind in Z as (k & cs & Ek & Hk). rewrite Ek in Hm. destruct y as [w|k'|k']; cbn [SymM] in Hm; try contradiction.
      subst k'. unfold in_three, nd_in in X. apply negb_true_iff in X. rewrite <- not_true_iff_false in X. apply X.
      apply existsb_exists. exists k. split; [exact Hk|now apply kind_eqb_eq]. }
    split.
    - intros x Ex. rewrite Ex in C2. rewrite forallb_forall in C2. specialize (C2 y Hys).
      destruct y as [w|k|k]; cbn [lit_sym] in C2; try discriminate.
      + apply text_eqb_eq in C2. destruct (i_el i) as [k t|]; [|contradiction]. destruct Hm as [-> ->].
        exists KEYWORD. now rewrite C2.
      + destruct (i_el i) as [k' t|] eqn:Ei; [|contradiction]. cbn [SymM] in Hm. subst k'.
        destruct (IO_par _ _ (IP_ok _ Hi) _ _ Ei) as [A B].
        destruct k; try discriminate; apply text_eqb_eq in C2; eexists; [rewrite (A eq_refl), C2|rewrite (B eq_refl), C2]; reflexivity.
    - exact Hsig.
    - destruct (s_lead s); try (now apply N3).
      + rewrite forallb_forall in C3. specialize (C3 y Hys). destruct y as [w|k|k]; try discriminate.
        destruct (i_el i) as [k' t|k' cs] eqn:Ei; cbn [SymM] in Hm; [contradiction|]. subst k'. exists k, cs. split; [reflexivity|].
        unfold nd_in in C3. apply existsb_exists in C3 as (x & Hx & Ex). apply kind_eqb_eq in Ex. subst x.
        destruct Hx as [<-|[<-|[]]]; auto.
      + rewrite forallb_forall in C3. specialize (C3 y Hys). destruct y as [w|k|k]; try discriminate.
        destruct (i_el i) as [k' t|k' cs] eqn:Ei; cbn [SymM] in Hm; [contradiction|]. subst k'. exists cs.
        unfold nd_in in C3. apply existsb_exists in C3 as (x & Hx & Ex). apply kind_eqb_eq in Ex. subst x.
        destruct Hx as [<-|[]]; auto.
    - assert (PR : tu || has_lparen_seg segs || nilb done = true -> nilb pre = true ->
        paren = true \/ afters [] (cat parts done ++ pre) = []).
      { intros X Y. destruct pre; [|discriminate]. rewrite app_nil_r.
        apply orb_prop in X as [X|X]; [apply orb_prop in X as [X|X]|].
        - right. unfold afters. destruct (rev (cat parts done)) as [|j r] eqn:Er; [reflexivity|].
          apply (Htu X). assert (Hj : In j (cat parts done)) by (apply in_rev; rewrite Er; now left).
          destruct (cat_in _ _ _ Hj) as (m & Hm2 & Hj2). apply in_concat. exists (nth m parts []). split; [|exact Hj2].
          apply nth_In. now apply Hlt.
        - left. auto.
        - right. now rewrite (Nil X). }
      destruct (s_lead s); try exact I; try (now apply PR).
      apply orb_prop in C4 as [C4|C4]; [now apply NoNil in C4|].
      apply andb_prop in C4 as [C4 C6]. apply andb_prop in C4 as [C4a C4b].
      assert (pre = []) as ->.
      { destruct (short_cat _ _ _ HS C4a C4b) as [Z|(j & Z)]; rewrite Z in E.
        - destruct pre; discriminate.
        - destruct pre as [|a [|b pre]]; [reflexivity|discriminate|discriminate]. }
      now rewrite (Nil C6).
    - intros Z. apply orb_prop in C5 as [C5|C5]; [apply orb_prop in C5 as [C5|C5]; [apply orb_prop in C5 as [C5|C5]|]|].
      + now apply NoNil in C5.
      + exfalso. apply (any_one_cat _ _ _ HS C5). now apply app_eq_nil in Z.
      + right. split; [exact C5|]. apply app_eq_nil in Z as [_ ->]. reflexivity.
      + left. rewrite forallb_forall in C5. specialize (C5 y Hys). destruct y as [w|k|k]; try discriminate.
        destruct (i_el i) as [k' t|k' cs] eqn:Ei; cbn [SymM] in Hm; [contradiction|]. subst k'. exists k, cs. auto.
  Qed.

  Section Run.
    Variables (tu : bool) (its : list item) (segs : list seg) (parts : list (list item)).
    Let E := filter (fun i => significant (i_el i)) its.
    Hypothesis HE : E = concat parts.
    Hypothesis HS : Forall2 (SegM i_el) segs parts.
    Hypothesis HI : Forall ItemOK2 E.
    Hypothesis Htu : tu = true -> forall i, In i E -> after o i = [].

    Lemma item_in2 idx i : In i (cat parts idx) -> ItemOK2 i /\ significant (i_el i) = true.
    Proof.
      intros H. assert (Hin : In i E).
      { rewrite HE. destruct (cat_in _ _ _ H) as (n & _ & Hn). apply in_concat.
        destruct (Nat.lt_ge_cases n (length parts)).
        - exists (nth n parts []). split; [now apply nth_In|exact Hn].
        - rewrite nth_overflow in Hn by lia. destruct Hn. }
      rewrite Forall_forall in HI. split; [now apply HI|]. now apply filter_In in Hin as [_ Hin].
    Qed.
    Lemma idx_lt s idx : choose_sym s segs = Some idx -> forall n, In n idx -> n < length parts.
    Proof.
      assert (A : forall sg m l, selidx (s_sel s) m sg = Some l -> forall p, In p l -> fst p < m + length sg).
      { induction sg as [|g sg IH]; intros m l; cbn [selidx]; [intros E0 p Hp; injection E0 as <-; destruct Hp|].
        destruct (sel_seg (s_sel s) g) as [b|]; [|discriminate]. destruct (selidx (s_sel s) (S m) sg) as [l'|] eqn:El; [|discriminate].
        intros E0 p Hp. injection E0 as <-. specialize (IH _ _ El). cbn [length].
        assert (X : In p l' -> fst p < m + S (length sg)) by (intros Y; apply IH in Y; lia).
        destruct b; [|auto]. destruct Hp as [<-|Hp]; [cbn; lia|auto]. }
      assert (Len : length segs = length parts) by (clear -HS; induction HS; cbn [length]; auto).
      intros Hc n Hn. unfold choose_sym in Hc. destruct (selidx (s_sel s) 0 segs) as [l|] eqn:El; [|discriminate].
      specialize (A _ _ _ El). cbn [Nat.add] in A. rewrite Len in A.
      destruct (s_mode s).
      - destruct l as [|[i [|]] l]; try discriminate; injection Hc as <-; [destruct Hn|].
        destruct Hn as [<-|[]]. apply (A (i, true)). now left.
      - destruct l as [|[i [|]] l]; try discriminate; [injection Hc as <-; destruct Hn|].
        destruct l as [|[j [|]] l]; try discriminate; injection Hc as <-; [destruct Hn|].
        destruct Hn as [<-|[]]. apply (A (j, true)). right. now left.
      - injection Hc as <-. apply in_map_iff in Hn as (p & <- & Hp). now apply A.
    Qed.

    Lemma run_step2 P0 s done idx st :
      choose_sym s segs = Some idx -> check2 tu segs done s idx = true -> (forall n, In n done -> n < length parts) ->
      Inv2 P0 st (cat parts done) -> Inv2 P0 (run_step o its s st) (cat parts (done ++ idx)).
    Proof.
      intros Hc Hk Hlt V. unfold run_step.
      assert (Hsig : sel_sig (s_sel s) = true).
      { unfold check2 in Hk. repeat (apply andb_prop in Hk as [Hk _]). exact Hk. }
      rewrite (choose_sig its _ Hsig). fold E. rewrite HE, (choose_sym_ok _ _ _ _ HS Hc), cat_app.
      apply emit_all2; [| |exact V].
      - apply Forall_forall. intros i Hi. now apply item_in2 in Hi.
      - intros pre i post Ei. cbn [andb].
        assert (Hin : In i (cat parts idx)) by (rewrite Ei; apply in_elt).
        destruct (item_in2 _ _ Hin) as [Ho Hs].
        eapply conds2; eauto; [exact (paren_ok its segs parts HE HS)|]. rewrite <- HE. exact Htu.
    Qed.

    Lemma run_steps2 P0 l : forall done d st, run2 tu segs done l = Some d -> (forall n, In n done -> n < length parts) ->
      Inv2 P0 st (cat parts done) -> Inv2 P0 (run_steps o its l st) (cat parts d) /\ (forall n, In n d -> n < length parts).
    Proof.
      induction l as [|s l IH]; intros done d st Hr Hlt V.
      - injection Hr as <-. auto.
      - cbn [run2] in Hr. destruct (choose_sym s segs) as [idx|] eqn:Ec0; [|discriminate].
        destruct (check2 tu segs done s idx) eqn:Ek; [|discriminate].
        unfold run_steps. cbn [fold_left]. apply (IH (done ++ idx) d); [exact Hr| |].
        + intros n Hn. apply in_app_or in Hn as [Hn|Hn]; [auto|]. eapply idx_lt; eauto.
        + now apply run_step2.
    Qed.

    Lemma run_parts2 l : forall done d st, parts2 tu segs done l = Some d -> (forall n, In n done -> n < length parts) ->
      Inv2 [] st (cat parts done) -> Inv2 [] (run_parts o its l st) (cat parts d).
    Proof.
      induction l as [|p l IH]; intros done d st Hr Hlt V.
      - injection Hr as <-. exact V.
      - unfold run_parts. cbn [fold_left]. destruct p as [s|f ss]; cbn [parts2] in Hr.
        + destruct (run2 tu segs done [s]) as [d1|] eqn:E1; [|discriminate].
          destruct (run_steps2 [] [s] done d1 st E1 Hlt V) as [W1 W2]. apply (IH d1 d); auto.
        + destruct (run2 tu segs done ss) as [d1|] eqn:E1; [|discriminate].
          destruct (any_one segs d1) eqn:Ea; [|discriminate]. destruct st as [docs tr].
          assert (V' : Inv2 (pcsl docs) ([], tr) (cat parts done)).
          { destruct V as [V1 V2 V3 V4]. cbn [fst snd app] in *. split; cbn [fst snd]; auto.
            - change (pcsl []) with (@nil piece). now rewrite app_nil_r.
            - change (pcsl []) with (@nil piece). now rewrite app_nil_r. }
          destruct (run_steps2 _ ss done d1 ([], tr) E1 Hlt V') as [W1 W2]. apply (IH d1 d); auto.
          cbn [run_part]. destruct (run_steps o its ss ([], tr)) as [inner tr'].
          pose proof (any_one_cat _ _ _ HS Ea) as Hne.
          assert (R : forall new, pcsl new = pcsl inner -> Inv2 [] (docs ++ new, tr') (cat parts d1)).
          { intros new En. destruct W1 as [X1 X2 X3 X4]. cbn [fst snd] in *. split; cbn [fst snd app]; try contradiction;
              rewrite ?pcsl_app, ?En; auto. }
          destruct (negb f || has_item (STok L_PAREN) its); apply R; [|reflexivity].
          cbn. now rewrite app_nil_r.
    Qed.

    Lemma Inv2_nil : Inv2 [] ([], []) [].
    Proof. split; cbn; auto; [constructor|discriminate]. Qed.

    Definition NodeEm (p : list piece) : Prop :=
      Ec [] E p /\ (forall i r, E = i :: r -> inst i \/ exists r', p = pcs (i_doc i) ++ r').

    Lemma form_emits l c n : form2 tu l c segs = true -> (c = CAppend -> afters [] E = []) ->
      NodeEm (pcs (shape_doc o (Node n (map i_el its)) its (Parts l c false))).
    Proof.
      intros H Ha. unfold form2 in H. apply andb_prop in H as [H1 H2].
      destruct (parts2 tu segs [] (l ++ closing_parts c)) as [d|] eqn:Er; [|discriminate].
      destruct (list_eq_dec Nat.eq_dec d (List.seq 0 (length segs))) as [->|]; [|discriminate].
      pose proof (run_parts2 _ _ _ _ Er ltac:(intros ? []) (Inv2_nil : Inv2 [] ([], []) (cat parts []))) as V.
      assert (Len : length segs = length parts) by (clear -HS; induction HS; cbn [length]; auto).
      rewrite Len, cat_all, <- HE in V.
      assert (Fin : forall docs tr, Inv2 [] (docs, tr) E -> NodeEm (pcsl docs)).
      { intros docs tr [X1 X2 X3 X4]. cbn [fst snd app] in *. split; auto. }
      cbn [shape_doc pcs]. fold (pcsl (close its c (run_parts o its l ([], [])))).
      unfold run_parts in V |- *. rewrite fold_left_app in V.
      destruct (fold_left (fun st p => run_part o its p st) l ([], [])) as [docs tr].
      destruct c; cbn [closing_parts fold_left run_part] in V; cbn [close].
      - destruct (choose_sym close_step segs) as [[|x [|? ?]]|] eqn:Ec0; try discriminate.
        unfold run_step in V. rewrite (choose_sig its close_step eq_refl) in V. fold E in V. rewrite HE, (choose_sym_ok _ _ _ _ HS Ec0) in V.
        assert (Hx : exists i, cat parts [x] = [i]).
        { unfold choose_sym in Ec0. destruct (selidx (s_sel close_step) 0 segs) as [l0|] eqn:El; [|discriminate].
          destruct (selidx_ok i_el _ _ _ HS 0 [] l0 eq_refl El) as [_ E2]. cbn [s_mode close_step] in Ec0.
          destruct l0 as [|[y [|]] l0]; try discriminate. injection Ec0 as ->. inversion E2 as [|? ? Hx _]; subst.
          destruct (Hx eq_refl) as (i & Hi). exists i. cbn [fst app] in Hi. unfold cat. cbn. now rewrite Hi. }
        destruct Hx as (i & Hx). rewrite Hx in V. cbn [emit_all emit] in V. rewrite <- HE in V.
        exact (Fin _ _ V).
      - unfold run_step in V. rewrite (choose_sig its close_step eq_refl) in V. fold E in V.
        assert (Hb : has_item (STok R_PAREN) its = negb (nilb (choose close_step E))).
        { unfold E. rewrite <- (choose_sig its close_step eq_refl). unfold choose, has_item. cbn [close_step s_sel s_mode].
          clear. induction its as [|i l IH]; [reflexivity|]. cbn [existsb filter].
          destruct (selects (STok R_PAREN) (i_el i)); [reflexivity|exact IH]. }
        rewrite Hb. unfold choose in V |- *. cbn [close_step s_mode s_sel] in V |- *.
        destruct (filter (fun i => selects (STok R_PAREN) (i_el i)) E) as [|i r]; cbn [firstn] in V |- *.
        + cbn [emit_all] in V. exact (Fin _ _ V).
        + cbn [emit_all emit] in V. exact (Fin _ _ V).
      - rewrite pcsl_app. pose proof (J_tr _ _ _ V) as Ht. cbn [snd] in Ht. rewrite (Ha eq_refl) in Ht.
        subst tr. change (pcsl []) with (@nil piece). rewrite app_nil_r. exact (Fin _ _ V).
      - exact (Fin _ _ V).
    Qed.
  End Run.
End Opts.
